(** get_grids: Cartesian product, bounds, corners; optimizer-name fallback. *)
From Verif Require Import Base Lists Num NumLaws UtilsModel UtilsSpec UtilsRProofs.
From Coq Require Import List ZArith Bool Reals Lra Lia Arith String.
From Flocq Require Import Core.Raux.

(** apply a list of functions to a list of indices, position by position *)
Fixpoint zipapp {A} (fs : list (nat -> A)) (t : list nat) : list A :=
  match fs, t with f :: fs', i :: t' => f i :: zipapp fs' t' | _, _ => [] end.

Lemma cprod_in {A} (ls : list (list A)) t : In t (cprod ls) <-> Forall2 (fun l x => In x l) ls t.
Proof.
  revert t; induction ls as [|l ls IH]; intros t; cbn [cprod].
  - split.
    + intros [<-|[]]. constructor.
    + intros H. inversion H. now left.
  - rewrite in_flat_map. split.
    + intros (x & Hx & Ht). apply in_map_iff in Ht as (t' & <- & Ht'). constructor; [exact Hx|]. now apply IH.
    + intros H. inversion H as [|? x ? t' Hx Ht']; subst. exists x. split; [exact Hx|].
      apply in_map. now apply IH.
Qed.

Lemma NoDup_flat_map {A B} (f : A -> list B) l :
  NoDup l -> (forall x, In x l -> NoDup (f x)) ->
  (forall x y z, In x l -> In y l -> In z (f x) -> In z (f y) -> x = y) -> NoDup (flat_map f l).
Proof.
  induction l as [|a l IH]; intros ND H1 H2; cbn [flat_map]; [constructor|].
  inversion ND as [|? ? Ha NDl]; subst.
  assert (G : NoDup (flat_map f l)).
  { apply IH; [exact NDl|intros; apply H1; now right|]. intros x y z Hx Hy. apply H2; now right. }
  pose proof (H1 a (or_introl eq_refl)) as Na.
  assert (Dis : forall z, In z (f a) -> ~ In z (flat_map f l)).
  { intros z Hz Hz'. apply in_flat_map in Hz' as (y & Hy & Hz').
    assert (a = y) by (apply (H2 a y z); auto; [now left|now right]). subst. contradiction. }
  revert Na Dis. induction (f a) as [|b r IHr]; intros Na Dis; [exact G|].
  inversion Na; subst. cbn [app]. constructor.
  - intros Hin. apply in_app_or in Hin as [Hin|Hin]; [contradiction|]. apply (Dis b); [now left|exact Hin].
  - apply IHr; [assumption|]. intros z Hz. apply Dis. now right.
Qed.

Lemma cprod_NoDup {A} (ls : list (list A)) : Forall (@NoDup A) ls -> NoDup (cprod ls).
Proof.
  induction 1 as [|l ls Hl Hls IH]; cbn [cprod].
  - constructor; [easy|constructor].
  - apply NoDup_flat_map; [exact Hl| |].
    + intros x _. apply FinFun.Injective_map_NoDup; [|exact IH]. intros a b E. now inversion E.
    + intros x y z _ _ Hx Hy. apply in_map_iff in Hx as (a & <- & _). apply in_map_iff in Hy as (b & E & _).
      now inversion E.
Qed.

Lemma cprod_map {A} (fs : list (nat -> A)) (s : list nat) :
  cprod (map (fun f => map f s) fs) = map (zipapp fs) (cprod (map (fun _ => s) fs)).
Proof.
  induction fs as [|f fs IH]; cbn [map cprod]; [reflexivity|].
  rewrite IH. clear IH. set (P := cprod (map (fun _ => s) fs)). clearbody P.
  induction s as [|i s IHs]; cbn [flat_map map]; [reflexivity|].
  rewrite map_app, IHs. f_equal. rewrite !map_map. reflexivity.
Qed.

Lemma swap01_map {A B} (f : A -> B) l : swap01 (map f l) = map f (swap01 l).
Proof. destruct l as [|a [|b l]]; reflexivity. Qed.

Lemma swap01_invol {A} (l : list A) : swap01 (swap01 l) = l.
Proof. destruct l as [|a [|b l]]; reflexivity. Qed.

Lemma swap01_length {A} (l : list A) : List.length (swap01 l) = List.length l.
Proof. destruct l as [|a [|b l]]; reflexivity. Qed.

Lemma swap01_Forall {A} (P : A -> Prop) l : Forall P l -> Forall P (swap01 l).
Proof.
  destruct l as [|a [|b l]]; cbn [swap01]; auto. intros H. inversion H as [|? ? ? H1]; subst.
  inversion H1; subst. repeat constructor; auto.
Qed.

Lemma zipapp_swap {A} (fs : list (nat -> A)) t : List.length t = List.length fs ->
  swap01 (zipapp (swap01 fs) t) = zipapp fs (swap01 t).
Proof.
  destruct fs as [|f [|g fs]], t as [|i [|j t]]; cbn; intros H; try discriminate; try reflexivity.
Qed.

Section Grid.
Context (N : Num).

Lemma get_grids_inv ranges m rows : get_grids N ranges m = Ok rows ->
  ranges <> [] /\ (0 <= m)%Z /\
  Forall (fun r => nle N (fst r) (snd r) = true) ranges /\
  rows = map swap01 (cprod (swap01 (map (fun r => map (linspace_elt N (fst r) (snd r) (Z.to_nat m)) (seq 0 (Z.to_nat m))) ranges))).
Proof.
  unfold get_grids. destruct (forallb _ ranges) eqn:EA; cbn [assert_ rbind]; [|discriminate].
  destruct (mapM _ ranges) as [ls|] eqn:E; cbn [rbind]; [|discriminate].
  destruct ls as [|l0 ls]; [discriminate|]. intros H. apply Ok_inj in H.
  pose proof (mapM_ok_length _ _ E) as Len.
  assert (Ne : ranges <> []) by (destruct ranges; [discriminate|congruence]).
  apply mapM_ok_iff in E.
  assert (Hm : (0 <= m)%Z).
  { inversion E as [|? ? ? ? H1]; subst. unfold linspace in H1. destruct (Z.ltb_spec m 0); [discriminate|lia]. }
  split; [exact Ne|]. split; [exact Hm|]. split.
  - apply Forall_forall. intros r Hr. rewrite forallb_forall in EA. now apply EA.
  - subst rows. f_equal. f_equal. f_equal. clear -E Hm.
    induction E as [|r l rs' ls' H E IH]; [reflexivity|]. cbn [map]. f_equal; [|exact IH].
    unfold linspace in H. destruct (Z.ltb_spec m 0); [lia|]. now apply Ok_inj in H.
Qed.

Theorem get_grids_product ranges m rows : get_grids N ranges m = Ok rows ->
  exists idx : list (list nat),
    NoDup idx /\
    (forall t, In t idx <-> grid_index (List.length ranges) (Z.to_nat m) t) /\
    rows = map (zipapp (map (fun r => linspace_elt N (fst r) (snd r) (Z.to_nat m)) ranges)) idx /\
    List.length rows = (Z.to_nat m ^ List.length ranges)%nat /\
    (forall row, In row rows -> List.length row = List.length ranges).
Proof.
  intros H. apply get_grids_inv in H as (Ne & Hm & _ & ->).
  set (k := Z.to_nat m). set (fs := map (fun r => linspace_elt N (fst r) (snd r) k) ranges).
  assert (E1 : map (fun r => map (linspace_elt N (fst r) (snd r) k) (seq 0 k)) ranges = map (fun f => map f (seq 0 k)) fs)
    by (unfold fs; rewrite map_map; reflexivity).
  rewrite E1, swap01_map, cprod_map, map_map.
  set (P := cprod (map (fun _ : nat -> N => seq 0 k) (swap01 fs))).
  assert (PL : forall t, In t P <-> List.length t = List.length fs /\ Forall (fun i => (i < k)%nat) t).
  { intros t. unfold P. rewrite cprod_in.
    rewrite <- (swap01_length fs). generalize (swap01 fs) as gs. intros gs. revert t.
    induction gs as [|g gs IH]; intros t; cbn [map List.length].
    - split.
      + intros F. inversion F. split; [reflexivity|constructor].
      + intros [L _]. destruct t; [constructor|discriminate].
    - split.
      + intros F. inversion F as [|? x ? t' Hx Ht]; subst. apply in_seq in Hx. apply IH in Ht as [L Ht].
        cbn [List.length]. split; [congruence|]. constructor; [lia|exact Ht].
      + intros [L F]. destruct t as [|x t]; [discriminate|]. inversion F; subst.
        constructor; [apply in_seq; lia|]. apply IH. split; [cbn in L; congruence|assumption]. }
  exists (map swap01 P).
  assert (Lf : List.length fs = List.length ranges) by (unfold fs; apply map_length).
  assert (EP : map (fun x => swap01 (zipapp (swap01 fs) x)) P = map (zipapp fs) (map swap01 P)).
  { rewrite map_map. apply map_ext_in. intros t Ht. apply zipapp_swap. now apply PL. }
  assert (IDX : forall t, In t (map swap01 P) <-> grid_index (List.length ranges) k t).
  { intros t. rewrite in_map_iff. unfold grid_index. rewrite <- Lf. split.
    - intros (s & <- & Hs). apply PL in Hs as [L F]. rewrite swap01_length. split; [exact L|]. now apply swap01_Forall.
    - intros [L F]. exists (swap01 t). split; [apply swap01_invol|]. apply PL. rewrite swap01_length. split; [exact L|].
      now apply swap01_Forall. }
  split; [|split; [exact IDX|split; [exact EP|split]]].
  - apply FinFun.Injective_map_NoDup.
    + intros a b E. rewrite <- (swap01_invol a), E. apply swap01_invol.
    + apply cprod_NoDup. apply Forall_forall. intros l Hl. apply in_map_iff in Hl as (? & <- & _). apply seq_NoDup.
  - rewrite map_length. rewrite <- Lf, <- (swap01_length fs). unfold P.
    generalize (swap01 fs) as gs. induction gs as [|g gs IH]; [reflexivity|].
    cbn [map cprod List.length]. rewrite Nat.pow_succ_r', <- IH.
    generalize (cprod (map (fun _ : nat -> N => seq 0 k) gs)) as Q. intros Q.
    rewrite <- (seq_length k 0) at 2. generalize (seq 0 k) as s.
    induction s as [|i s IHs]; [reflexivity|]. cbn [flat_map List.length]. rewrite app_length, map_length, IHs. lia.
  - intros row Hr. rewrite EP in Hr. apply in_map_iff in Hr as (t & <- & Ht). apply IDX in Ht as [L _].
    rewrite <- Lf. assert (L' : List.length t = List.length fs) by congruence. clear -L'. revert t L'.
    induction fs as [|f fs IH]; intros [|i t] L'; cbn in *; try discriminate; [reflexivity|]. f_equal. apply IH. congruence.
Qed.

Theorem get_grids_succeeds ranges m :
  is_ok (get_grids N ranges m) = true <->
  ranges <> [] /\ (0 <= m)%Z /\ Forall (fun r => nle N (fst r) (snd r) = true) ranges.
Proof.
  split.
  - destruct (get_grids N ranges m) as [rows|] eqn:E; [|discriminate]. intros _.
    apply get_grids_inv in E. tauto.
  - intros (Ne & Hm & F). unfold get_grids.
    assert (EA : forallb (fun r : N * N => nle N (fst r) (snd r)) ranges = true).
    { apply forallb_forall. now apply Forall_forall. }
    rewrite EA. cbn [assert_ rbind].
    assert (G : forall rs, exists ls, mapM (fun r => linspace N (fst r) (snd r) m) rs = Ok ls /\ List.length ls = List.length rs).
    { induction rs as [|r rs (ls & E & L)]; cbn [mapM].
      - exists []. auto.
      - unfold linspace at 1. destruct (Z.ltb_spec m 0); [lia|]. cbn [rbind]. rewrite E. cbn [rbind].
        eexists. split; [reflexivity|]. cbn. now rewrite L. }
    destruct (G ranges) as (ls & E & L). rewrite E. cbn [rbind]. destruct ls; [|reflexivity].
    destruct ranges; [congruence|discriminate].
Qed.
End Grid.

(** ** exact values *)
Local Open Scope R_scope.
Lemma linspace_elt_R (a b : R) m i : (2 <= m)%nat -> (i < m)%nat ->
  linspace_elt NumR a b m i = spaced a b m i.
Proof.
  intros Hm Hi. destruct m as [|[|d]]; [lia|lia|]. unfold spaced.
  replace (S (S d) - 1)%nat with (S d) by lia.
  assert (P : 0 < INR (S d)) by (apply (lt_INR 0); lia).
  unfold linspace_elt. cbn [nsub nadd nmul ndiv nofZ neqb NumR car]. unfold nofnat. cbn [nofZ NumR].
  rewrite <- !INR_IZR_INZ.
  destruct (Nat.eqb_spec i (S d)) as [->|Ne].
  - field. lra.
  - destruct (Req_bool_spec ((b - a) / INR (S d)) 0) as [E|E]; field; lra.
Qed.

Lemma linspace_elt_R1 (a b : R) i : (i < 1)%nat -> linspace_elt NumR a b 1 i = a.
Proof.
  intros Hi. assert (i = 0)%nat by lia. subst. unfold linspace_elt, nofnat. cbn [nadd nmul nofZ nsub NumR car].
  cbn [Z.of_nat]. lra.
Qed.

Lemma spaced_in (a b : R) m i : (2 <= m)%nat -> (i < m)%nat -> a <= b -> a <= spaced a b m i <= b.
Proof.
  intros Hm Hi Hab. unfold spaced.
  assert (P : 0 < INR (m - 1)) by (apply (lt_INR 0); lia).
  assert (Q : 0 <= INR i / INR (m - 1) <= 1).
  { split.
    - apply Rmult_le_pos; [apply pos_INR|]. left. now apply Rinv_0_lt_compat.
    - apply Rmult_le_reg_r with (INR (m - 1)); [exact P|]. unfold Rdiv. rewrite Rmult_assoc, Rinv_l by lra.
      rewrite Rmult_1_r, Rmult_1_l. apply le_INR. lia. }
  nra.
Qed.

Theorem get_grids_in_box (ranges : list (R * R)) m rows :
  get_grids NumR ranges m = Ok rows -> forall row, In row rows -> in_box ranges row.
Proof.
  intros H row Hr. pose proof (get_grids_inv _ _ _ _ H) as (_ & _ & F & _).
  destruct (get_grids_product _ _ _ _ H) as (idx & _ & HI & -> & _).
  apply in_map_iff in Hr as (t & <- & Ht). apply HI in Ht as [L FT]. clear HI H idx.
  set (k := Z.to_nat m) in *. unfold in_box. revert t L FT.
  induction F as [|r rs Hrr F IH]; intros [|i t] L FT; cbn in L; try discriminate; cbn [map zipapp]; [constructor|].
  inversion FT; subst. constructor.
  - assert (Hr : fst r <= snd r).
    { apply (nle_true NumR_ord) in Hrr. exact (proj2 (proj2 Hrr)). }
    destruct k as [|[|d]]; [lia| |].
    + rewrite linspace_elt_R1 by assumption. split; [apply Rle_refl|exact Hr].
    + rewrite linspace_elt_R by lia. apply spaced_in; [lia|lia|exact Hr].
  - apply IH; [injection L as L; exact L|assumption].
Qed.

Theorem get_grids_corners (ranges : list (R * R)) m rows :
  get_grids NumR ranges m = Ok rows -> (2 <= m)%Z -> forall row, corner ranges row -> In row rows.
Proof.
  intros H Hm row Hc.
  destruct (get_grids_product _ _ _ _ H) as (idx & _ & HI & -> & _). clear H.
  set (k := Z.to_nat m) in *.
  assert (G : exists t, grid_index (List.length ranges) k t /\
            zipapp (map (fun r : NumR * NumR => linspace_elt NumR (fst r) (snd r) k) ranges) t = row).
  { clear HI. induction Hc as [|r v rs vs Hv Hc (t & [L F] & E)].
    - exists []. split; [split; [reflexivity|constructor]|reflexivity].
    - destruct Hv as [->| ->].
      + exists (0 :: t)%nat. split; [split; [cbn; now rewrite L|constructor; [lia|exact F]]|].
        cbn [map zipapp]. f_equal; [|exact E].
        rewrite linspace_elt_R by lia. unfold spaced. simpl. lra.
      + exists (k - 1 :: t)%nat. split; [split; [cbn; now rewrite L|constructor; [lia|exact F]]|].
        cbn [map zipapp]. f_equal; [|exact E].
        rewrite linspace_elt_R by lia. unfold spaced.
        assert (0 < INR (k - 1)) by (apply (lt_INR 0); lia). change (fst r + (snd r - fst r) * (INR (k - 1) / INR (k - 1)) = snd r)%R. field. lra. }
  destruct G as (t & Ht & <-). apply in_map. now apply HI.
Qed.

(** ** check_optimizer_method_bo *)
Local Open Scope string_scope.
Theorem check_optimizer_method_bo_spec da ca m dim :
  match check_optimizer_method_bo da ca m dim with
  | Ok r =>
      In m ["L-BFGS-B"; "DIRECT"; "CMA-ES"; "random_search"] /\
      (r = "DIRECT" -> da = true) /\ (r = "CMA-ES" -> ca = true /\ dim <> 1%Z) /\
      (r = m \/ r = "L-BFGS-B") /\
      (m <> "DIRECT" \/ da = true -> m <> "CMA-ES" \/ (ca = true /\ dim <> 1%Z) -> r = m) /\
      check_optimizer_method_bo da ca r dim = Ok r
  | Raise e => e = AssertionError /\ ~ In m ["L-BFGS-B"; "DIRECT"; "CMA-ES"; "random_search"]
  end.
Proof.
  unfold check_optimizer_method_bo, str_in, ALLOWED_OPTIMIZER_METHOD_BO, ALLOWED_OPTIMIZER_METHOD_BO_TREES.
  cbn [List.app existsb].
  destruct (String.eqb_spec m "L-BFGS-B") as [->|N1].
  { cbn. repeat split; auto; try discriminate; tauto. }
  destruct (String.eqb_spec m "DIRECT") as [->|N2].
  { cbn. destruct da; cbn; repeat split; auto; try discriminate; try tauto. intros [H|H]; congruence. }
  destruct (String.eqb_spec m "CMA-ES") as [->|N3].
  { destruct (Z.eqb_spec dim 1) as [D|D], ca; cbn; rewrite ?(proj2 (Z.eqb_neq dim 1) D); cbn;
      repeat split; auto; try discriminate; try tauto; try (intros _ [H|[H1 H2]]; congruence). }
  destruct (String.eqb_spec m "random_search") as [->|N4].
  { cbn. repeat split; auto; try discriminate; try tauto. }
  cbn. split; [reflexivity|]. intros H. repeat destruct H as [H|H]; congruence.
Qed.
