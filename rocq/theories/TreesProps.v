(** Properties C48-C55 and C74 (trees). *)
From Verif Require Import Base Lists Num NumLaws NumFin Monad UtilsSpec TreesModel TreesSpec TreesProofs TreesRProofs TreesPool TreesTotal TreesTop View.
From Coq Require Import List ZArith Bool Arith Permutation Reals Lra Lia.
From Flocq Require Import Core IEEE754.BinarySingleNaN.

(** ** a concrete random source for the examples: the first indices *)
Definition ex_choice (n k : nat) (rep : bool) (w : unit) : unit * res (list nat) :=
  if rep then (if Nat.ltb 0 n then (w, Ok (map (fun i => Nat.modulo i n) (seq 0 k))) else (w, Raise ValueError))
  else if Nat.leb k n then (w, Ok (seq 0 k)) else (w, Raise ValueError).
Definition ex_uniform (N : Num) (lo hi : N) (w : unit) : unit * res N := (w, Ok lo).
Lemma ex_choice_contract : choice_contract ex_choice.
Proof.
  intros n k rep w w' idx. unfold ex_choice. destruct rep.
  - destruct (Nat.ltb_spec 0 n); intros H'; inversion H'; subst. split; [now rewrite map_length, seq_length|]. split; [|discriminate].
    apply Forall_forall. intros i Hi. apply in_map_iff in Hi. destruct Hi as (j & <- & _). apply Nat.mod_upper_bound. lia.
  - destruct (Nat.leb_spec k n); intros H'; inversion H'; subst. split; [apply seq_length|]. split; [|intros _; apply seq_NoDup].
    apply Forall_forall. intros i Hi. apply in_seq in Hi. lia.
Qed.
Lemma ex_choice_total : choice_total ex_choice.
Proof.
  intros n k rep w H D. unfold ex_choice. destruct rep.
  - rewrite (proj2 (Nat.ltb_lt _ _) H). eauto.
  - destruct D as [D|D]; [discriminate|]. rewrite (proj2 (Nat.leb_le _ _) D). eauto.
Qed.

(** four rows, responses 0, 10, 10, 10 *)
Definition ex_X : mat NumF := mkmat [[fofZ 0]; [fofZ 1]; [fofZ 2]; [fofZ 3]] 1.
Definition ex_Y : list NumF := [fofZ 0; fofZ 10; fofZ 10; fofZ 10].
Definition ex_truncF (x : NumF) : option Z := if is_finite (x : f64) then Some (Btrunc (x : f64)) else None.
Lemma ex_X_finite : forall x, In x (mrows ex_X) -> Forall (fin NumF_fin) x.
Proof. intros x [<-|[<-|[<-|[<-|[]]]]]; (constructor; [vm_compute; reflexivity|constructor]). Qed.
Lemma ex_uniformF : uniform_contract NumF (fun lo hi w => if is_nan (lo : f64) then (w, Raise ValueError) else ex_uniform NumF lo hi w).
Proof. intros lo hi w w' v. destruct (is_nan (lo : f64)) eqn:E; intros H; inversion H; subst. exact E. Qed.
Definition ex_uniF (lo hi : NumF) (w : unit) : unit * res NumF := if is_nan (lo : f64) then (w, Raise ValueError) else ex_uniform NumF lo hi w.

(** leaf sizes of a tree *)
Inductive shape := SL (n : nat) | SN (a b : shape).
Fixpoint shape_of {N} (t : tree N) : shape := match t with TLeaf l => SL (List.length l) | TNode _ _ a b => SN (shape_of a) (shape_of b) end.
Definition ok_map {A B} (f : A -> B) (r : res A) : option B := match r with Ok a => Some (f a) | Raise _ => None end.

Definition ex_run (m : Z) := get_generic_trees NumF unit ex_choice ex_uniF ex_truncF ex_X ex_Y 2 3 m (nofZ NumF 1) false 1 false tt.

(** ** C48: nothing lost, nothing invented, no empty leaf *)
Theorem C48_generic : forall (N : Num) (O : NumOrd N) (F : NumFin N) W choice uniform trunc X Y nt dm m ratio rep nf rl w w' t ts,
  uniform_contract N uniform -> (forall x, In x (mrows X) -> Forall (fin F) x) ->
  get_generic_trees N W choice uniform trunc X Y nt dm m ratio rep nf rl w = (w', t, Ok ts) ->
  List.length ts = Z.to_nat nt /\
  Forall (fun bt => drawn_from N X Y (fst bt) /\ Holds N (snd bt) (fst bt) /\ (forall l, In l (leaves N (snd bt)) -> l <> [])) ts.
Proof.
  intros N O F W choice uniform trunc X Y nt dm m ratio rep nf rl w w' t ts UC HX H.
  destruct (generic_ok O UC HX H) as (L & FT). split; [exact L|].
  eapply Forall_impl; [|exact FT]. intros bt (D & HH & _). split; [exact D|]. split; [exact HH|]. intros l Hl. apply (leaves_held HH Hl).
Qed.
Print Assumptions C48_generic.

Theorem C48_random_forest : forall (N : Num) (O : NumOrd N) (F : NumFin N) W choice uniform trunc X Y nt dm m nf w w' t ts,
  uniform_contract N uniform -> (forall x, In x (mrows X) -> Forall (fin F) x) ->
  get_random_forest N W choice uniform trunc X Y nt dm m nf w = (w', t, Ok ts) ->
  List.length ts = Z.to_nat nt /\
  Forall (fun bt => drawn_from N X Y (fst bt) /\ Holds N (snd bt) (fst bt) /\ (forall l, In l (leaves N (snd bt)) -> l <> [])) ts.
Proof.
  intros N O F W choice uniform trunc X Y nt dm m nf w w' t ts UC HX H.
  destruct (random_forest_ok O UC HX H) as (L & FT). split; [exact L|].
  eapply Forall_impl; [|exact FT]. intros bt (D & HH & _). split; [exact D|]. split; [exact HH|]. intros l Hl. apply (leaves_held HH Hl).
Qed.
Print Assumptions C48_random_forest.

Example C48_example : ok_map (map (fun bt => (List.length (fst bt), shape_of (snd bt)))) (snd (ex_run 1)) =
  Some [(4%nat, SN (SL 1) (SN (SL 1) (SN (SL 1) (SL 1)))); (4%nat, SN (SL 1) (SN (SL 1) (SN (SL 1) (SL 1))))].
Proof. vm_compute. reflexivity. Qed.

(** infinite coordinates: the midpoint of -inf and inf is NaN, both sides are empty and the rows are lost *)
Definition ex_Xinf : mat NumF := mkmat [[B754_infinity true : f64]; [B754_infinity false : f64]] 1.
Theorem C48_infinite_refuted : exists ts, snd (get_generic_trees NumF unit ex_choice ex_uniF ex_truncF ex_Xinf [fofZ 0; fofZ 1] 1 3 1 (nofZ NumF 1) false 1 false tt) = Ok ts /\
  exists bt, In bt ts /\ List.length (fst bt) = 2%nat /\ In [] (leaves NumF (snd bt)).
Proof.
  assert (E : ok_map (map (fun bt => (List.length (fst bt), shape_of (snd bt))))
     (snd (get_generic_trees NumF unit ex_choice ex_uniF ex_truncF ex_Xinf [fofZ 0; fofZ 1] 1 3 1 (nofZ NumF 1) false 1 false tt)) = Some [(2%nat, SN (SL 0) (SL 0))])
    by (vm_compute; reflexivity).
  destruct (snd _) as [ts|e]; [|discriminate E]. cbn [ok_map] in E. exists ts. split; [reflexivity|].
  destruct ts as [|[boot tr] [|? ?]]; try discriminate E. exists (boot, tr). split; [now left|]. cbn [map fst snd] in E.
  injection E as E1 E2. split; [exact E1|]. cbn [snd]. destruct tr as [l|i v [l1|? ? ? ?] b]; cbn [shape_of] in E2; try discriminate E2.
  injection E2 as E3 E4. destruct l1; [|discriminate E3]. now left.
Qed.
Print Assumptions C48_infinite_refuted.

(** ** C49: depth *)
Theorem C49_generic : forall (N : Num) (O : NumOrd N) (F : NumFin N) W choice uniform trunc X Y nt dm m ratio rep nf rl w w' t ts,
  uniform_contract N uniform -> (forall x, In x (mrows X) -> Forall (fin F) x) ->
  get_generic_trees N W choice uniform trunc X Y nt dm m ratio rep nf rl w = (w', t, Ok ts) ->
  Forall (fun bt => (Z.of_nat (depth N (snd bt)) <= Z.max 1 dm)%Z) ts.
Proof.
  intros N O F W choice uniform trunc X Y nt dm m ratio rep nf rl w w' t ts UC HX H.
  destruct (generic_ok O UC HX H) as (_ & FT). eapply Forall_impl; [|exact FT]. intros bt (_ & _ & D & _). exact D.
Qed.
Print Assumptions C49_generic.
Theorem C49_random_forest : forall (N : Num) (O : NumOrd N) (F : NumFin N) W choice uniform trunc X Y nt dm m nf w w' t ts,
  uniform_contract N uniform -> (forall x, In x (mrows X) -> Forall (fin F) x) ->
  get_random_forest N W choice uniform trunc X Y nt dm m nf w = (w', t, Ok ts) ->
  Forall (fun bt => (Z.of_nat (depth N (snd bt)) <= Z.max 1 dm)%Z) ts.
Proof.
  intros N O F W choice uniform trunc X Y nt dm m nf w w' t ts UC HX H.
  destruct (random_forest_ok O UC HX H) as (_ & FT). eapply Forall_impl; [|exact FT]. intros bt (_ & _ & D & _). exact D.
Qed.
Print Assumptions C49_random_forest.
(** the bound is attained: three decision nodes with depth_max = 3, one with depth_max = 0 *)
Example C49_example : ok_map (map (fun bt => depth NumF (snd bt))) (snd (ex_run 1)) = Some [3%nat; 3%nat] /\
  ok_map (map (fun bt => depth NumF (snd bt)))
    (snd (get_generic_trees NumF unit ex_choice ex_uniF ex_truncF ex_X ex_Y 2 0 1 (nofZ NumF 1) false 1 false tt)) = Some [1%nat; 1%nat].
Proof. split; vm_compute; reflexivity. Qed.

(** ** C50: size_min_leaf does not bound the size of the leaves *)
Theorem C50_min_leaf_refuted : exists m ts, snd (ex_run m) = Ok ts /\ exists bt, In bt ts /\ node_splits_small NumF m (snd bt).
Proof.
  assert (E : ok_map (map (fun bt => (List.length (fst bt), shape_of (snd bt)))) (snd (ex_run 3)) = Some [(4%nat, SN (SL 1) (SL 3)); (4%nat, SN (SL 1) (SL 3))])
    by (vm_compute; reflexivity).
  exists 3%Z. destruct (ex_run 3) as [[w' t] [ts|e]] eqn:ER; [|discriminate E]. cbn [snd ok_map] in E. exists ts. split; [reflexivity|].
  unfold ex_run in ER. destruct (@C48_generic NumF NumF_ord NumF_fin unit ex_choice ex_uniF ex_truncF ex_X ex_Y 2 3 3 (nofZ NumF 1) false 1 false tt w' t ts ex_uniformF ex_X_finite ER) as (_ & FT).
  destruct ts as [|[boot tr] ts]; [discriminate E|]. exists (boot, tr). split; [now left|]. cbn [map fst snd] in E.
  inversion FT as [|? ? (_ & HH & _) _]; subst. cbn [fst snd] in HH |- *. injection E as E1 E2 _.
  destruct tr as [l|i v [l1|? ? ? ?] b]; cbn [shape_of] in E2; try discriminate E2. injection E2 as E3 E4.
  cbn [node_splits_small]. left. exists boot. split; [exact HH|]. split; [unfold row in E1 |- *; rewrite E1; reflexivity|].
  exists l1. split; [now left|]. unfold row in E3 |- *. rewrite E3. reflexivity.
Qed.
Print Assumptions C50_min_leaf_refuted.
(** what holds: below the root only nodes with more than size_min_leaf rows are split *)
Theorem C50_min_leaf_partial : forall (N : Num) (O : NumOrd N) (F : NumFin N) W choice uniform trunc X Y nt dm m ratio rep nf rl w w' t ts,
  uniform_contract N uniform -> (forall x, In x (mrows X) -> Forall (fin F) x) ->
  get_generic_trees N W choice uniform trunc X Y nt dm m ratio rep nf rl w = (w', t, Ok ts) ->
  Forall (fun bt => below_root N m (snd bt)) ts.
Proof.
  intros N O F W choice uniform trunc X Y nt dm m ratio rep nf rl w w' t ts UC HX H.
  destruct (generic_ok O UC HX H) as (_ & FT). eapply Forall_impl; [|exact FT]. intros bt (_ & _ & _ & D). exact D.
Qed.
Print Assumptions C50_min_leaf_partial.
Example C50_example : ok_map (map (fun bt => shape_of (snd bt))) (snd (ex_run 2)) = Some [SN (SL 1) (SN (SL 1) (SL 2)); SN (SL 1) (SN (SL 1) (SL 2))].
Proof. vm_compute. reflexivity. Qed.

(** ** C51: routing *)
Theorem C51_routing : forall (N : Num) (O : NumOrd N) (F : NumFin N) W choice uniform trunc X Y nt dm m ratio rep nf rl w w' t ts,
  uniform_contract N uniform -> (forall x, In x (mrows X) -> Forall (fin F) x) ->
  get_generic_trees N W choice uniform trunc X Y nt dm m ratio rep nf rl w = (w', t, Ok ts) ->
  Forall (fun bt => forall r, In r (fst bt) -> exists l, route N (fst r) (snd bt) = Some l /\ In r l /\
            predict_by_tree N (fst r) (snd bt) = Ok (nmean N (map snd l), nstd N 0 (map snd l))) ts.
Proof.
  intros N O F W choice uniform trunc X Y nt dm m ratio rep nf rl w w' t ts UC HX H.
  destruct (generic_ok O UC HX H) as (_ & FT). eapply Forall_impl; [|exact FT]. intros bt (_ & HH & _) r Hr.
  destruct (route_member O HH Hr) as (l & E & I). exists l. split; [exact E|]. split; [exact I|]. assert (P := predict_route (fst r) HH). now rewrite E in P.
Qed.
Print Assumptions C51_routing.
Theorem C51_sides : forall (N : Num) (O : NumOrd N) (F : NumFin N) W choice uniform trunc X Y nt dm m ratio rep nf rl w w' t ts,
  uniform_contract N uniform -> (forall x, In x (mrows X) -> Forall (fin F) x) ->
  get_generic_trees N W choice uniform trunc X Y nt dm m ratio rep nf rl w = (w', t, Ok ts) ->
  Forall (fun bt => forall i v a b, In (TNode i v a b) (subtrees N (snd bt)) ->
     (exists l, a = TLeaf l /\ b = TLeaf l /\ (Forall (goes_left N i v) l \/ Forall (goes_right N i v) l)) \/
     (Forall (Forall (goes_left N i v)) (leaves N a) /\ Forall (Forall (goes_right N i v)) (leaves N b))) ts.
Proof.
  intros N O F W choice uniform trunc X Y nt dm m ratio rep nf rl w w' t ts UC HX H.
  destruct (generic_ok O UC HX H) as (_ & FT). eapply Forall_impl; [|exact FT]. intros bt (_ & HH & _) i v a b I. now apply (subtree_sides HH).
Qed.
Print Assumptions C51_sides.
Example C51_example : exists ts bt, snd (ex_run 1) = Ok ts /\ In bt ts /\ List.length (fst bt) = 4%nat /\ List.length (subtrees NumF (snd bt)) = 7%nat.
Proof.
  assert (E : ok_map (map (fun bt => (List.length (fst bt), List.length (subtrees NumF (snd bt))))) (snd (ex_run 1)) = Some [(4%nat, 7%nat); (4%nat, 7%nat)])
    by (vm_compute; reflexivity).
  destruct (snd (ex_run 1)) as [ts|e]; [|discriminate E]. cbn [ok_map] in E. destruct ts as [|bt ts]; [discriminate E|].
  exists (bt :: ts), bt. split; [reflexivity|]. split; [now left|]. cbn [map] in E. injection E as E1 E2 _. auto.
Qed.

(** ** C52, C74: predictions in exact arithmetic *)
Theorem C52_prediction_range : forall W choice uniform trunc X Y nt dm m ratio rep nf rl w w' t ts a b Xq sched out,
  uniform_contract NumR uniform ->
  get_generic_trees NumR W choice uniform trunc X Y nt dm m ratio rep nf rl w = (w', t, Ok ts) ->
  (forall y, In y Y -> a <= y <= b)%R ->
  Permutation sched (seq 0 ((List.length Xq + 99) / 100)) ->
  predict_by_trees NumR Xq (map snd ts) sched = Ok out ->
  List.length out = List.length Xq /\ Forall (fun p : R * R => a <= fst p <= b /\ 0 <= snd p <= (b - a) / 2)%R out.
Proof.
  intros W choice uniform trunc X Y nt dm m ratio rep nf rl w w' t ts a b Xq sched out UC H B P E.
  assert (HX : forall x, In x (mrows X) -> Forall (fin NumR_fin) x) by (intros x _; apply Forall_forall; intros; exact I).
  destruct (generic_ok NumR_ord UC HX H) as (_ & FT). eapply predict_between; eauto.
Qed.
Print Assumptions C52_prediction_range.
Theorem C52_tree_range : forall W choice uniform trunc X Y nt dm m ratio rep nf rl w w' t ts a b bt x p,
  uniform_contract NumR uniform ->
  get_generic_trees NumR W choice uniform trunc X Y nt dm m ratio rep nf rl w = (w', t, Ok ts) ->
  (forall y, In y Y -> a <= y <= b)%R -> In bt ts ->
  predict_by_tree NumR x (snd bt) = Ok p -> (a <= fst p <= b /\ 0 <= snd p <= (b - a) / 2)%R.
Proof.
  intros W choice uniform trunc X Y nt dm m ratio rep nf rl w w' t ts a b bt x p UC H B I E.
  assert (HX : forall x, In x (mrows X) -> Forall (fin NumR_fin) x) by (intros y _; apply Forall_forall; intros; exact Logic.I).
  destruct (generic_ok NumR_ord UC HX H) as (_ & FT). rewrite Forall_forall in FT.
  assert (LB := tree_ok_between (FT bt I) B). destruct (tree_pred LB E) as (P1 & P2 & P3). split; [exact P1|]. split; [exact P2|].
  assert (S := Rle_0_sqr (fst p - (a + b) / 2)). assert (HS : ((snd p)² <= ((b - a) / 2)²)%R) by (cbn [NumR car] in *; lra).
  apply abs_le_of_sq in HS; lra.
Qed.
Print Assumptions C52_tree_range.

Theorem C74_never_fails : forall W choice uniform trunc X Y nt dm m ratio rep nf rl w Xq sched,
  choice_contract choice -> choice_total choice -> uniform_total NumR uniform -> uniform_contract NumR uniform ->
  data_ok trunc X Y ratio rep nf -> (0 < nt)%Z ->
  (forall x, In x Xq -> List.length x = mcols X) ->
  Permutation sched (seq 0 ((List.length Xq + 99) / 100)) ->
  exists w' t ts out, get_generic_trees NumR W choice uniform trunc X Y nt dm m ratio rep nf rl w = (w', t, Ok ts) /\
    List.length ts = Z.to_nat nt /\ predict_by_trees NumR Xq (map snd ts) sched = Ok out.
Proof.
  intros W choice uniform trunc X Y nt dm m ratio rep nf rl w Xq sched CC CT UT UC DK NT HQ P.
  destruct (generic_suc CC CT UT UC nt dm m rl DK w) as (w' & t & ts & E & L).
  assert (HX : forall x, In x (mrows X) -> Forall (fin NumR_fin) x) by (intros y _; apply Forall_forall; intros; exact I).
  destruct (generic_ok NumR_ord UC HX E) as (_ & FT).
  destruct (@predict_succeeds X Y dm m ts Xq sched FT) as (out & EO); auto.
  - intros ->. cbn in L. lia.
  - apply DK.
  - exists w', t, ts, out. auto.
Qed.
Print Assumptions C74_never_fails.
Theorem C74_forest_never_fails : forall W choice uniform trunc X Y nt dm m nf w,
  choice_contract choice -> choice_total choice -> uniform_total NumR uniform -> uniform_contract NumR uniform ->
  data_ok trunc X Y 1%R true nf ->
  exists w' t ts, get_random_forest NumR W choice uniform trunc X Y nt dm m nf w = (w', t, Ok ts) /\ List.length ts = Z.to_nat nt.
Proof.
  intros W choice uniform trunc X Y nt dm m nf w CC CT UT UC DK. exact (forest_suc CC CT UT UC nt dm m DK w).
Qed.
Print Assumptions C74_forest_never_fails.

Definition ex_truncR (x : R) : option Z := Some (Ztrunc x).
Definition ex_XR : mat R := mkmat [[0%R]; [1%R]; [3%R]] 1.
Definition ex_YR : list R := [1%R; 5%R; 2%R].
Lemma ex_data : data_ok ex_truncR ex_XR ex_YR 1%R true 1.
Proof.
  split; [intros r [<-|[<-|[<-|[]]]]; reflexivity|]. split; [reflexivity|]. split; [unfold nrows; cbn; lia|]. split; [cbn; lia|].
  split; [split; [lra|discriminate]|]. exists 3%Z. split; [|split; [lia|discriminate]]. unfold ex_truncR. f_equal.
  replace (INR (nrows ex_XR) * 1)%R with (IZR 3) by (unfold nrows; cbn; lra). apply Ztrunc_IZR.
Qed.
Example C52_C74_example : exists w' t ts out,
  get_generic_trees NumR unit ex_choice (ex_uniform NumR) ex_truncR ex_XR ex_YR 7 4 1 1%R true 1 false tt = (w', t, Ok ts) /\
  predict_by_trees NumR [[2%R]; [10%R]] (map snd ts) [0%nat] = Ok out /\
  List.length out = 2%nat /\ Forall (fun p : R * R => 1 <= fst p <= 5 /\ 0 <= snd p <= 2)%R out.
Proof.
  destruct (@C74_never_fails unit ex_choice (ex_uniform NumR) ex_truncR ex_XR ex_YR 7 4 1 1%R true 1 false tt [[2%R]; [10%R]] [0%nat]) as (w' & t & ts & out & E & L & EO).
  - exact ex_choice_contract.
  - exact ex_choice_total.
  - intros lo hi w. unfold ex_uniform. eauto.
  - intros lo hi w w' v _. reflexivity.
  - exact ex_data.
  - lia.
  - intros x [<-|[<-|[]]]; reflexivity.
  - apply Permutation_refl.
  - exists w', t, ts, out. split; [exact E|]. split; [exact EO|].
    destruct (@C52_prediction_range unit ex_choice (ex_uniform NumR) ex_truncR ex_XR ex_YR 7 4 1 1%R true 1 false tt w' t ts 1%R 5%R [[2%R]; [10%R]] [0%nat] out) as (LO & FO).
    + intros lo hi w0 w1 v _. reflexivity.
    + exact E.
    + intros y [<-|[<-|[<-|[]]]]; lra.
    + apply Permutation_refl.
    + exact EO.
    + split; [exact LO|]. eapply Forall_impl; [|exact FO]. intros p Hp. cbn beta in Hp. lra.
Qed.

(** in binary64 the mean of equal responses can exceed them: three times 0.1 *)
Definition f01 : NumF := nlit NumF 1 10.
Theorem C52_float_refuted : exists p, predict_by_tree NumF [fofZ 0] (@TLeaf NumF [([fofZ 0], f01); ([fofZ 0], f01); ([fofZ 0], f01)]) = Ok p /\
  nlt NumF f01 (fst p) = true.
Proof. eexists. split; [reflexivity|]. vm_compute. reflexivity. Qed.
Print Assumptions C52_float_refuted.

(** ** C53: combining the trees *)
Theorem C53_compute_sigma : forall (mus sigmas : list R) (m : R), mus <> [] -> List.length mus = List.length sigmas ->
  compute_sigma NumR mus sigmas m = Ok (mixture_sigma mus sigmas m) /\
  (0 <= m -> m <= mixture_sigma mus sigmas m)%R /\
  (mixture_sigma mus sigmas m = 0%R <-> (forall s, In s sigmas -> Rmax s m = 0%R) /\ (forall u v, In u mus -> In v mus -> u = v)).
Proof.
  intros mus sigmas m N L. split; [now apply compute_sigma_eq|]. split; [now apply mixture_ge|now apply mixture_zero].
Qed.
Print Assumptions C53_compute_sigma.
(** the clamp at zero never acts in exact arithmetic *)
Theorem C53_clamp_idle : forall (mus sigmas : list R) (m : R), mus <> [] -> List.length mus = List.length sigmas ->
  (0 <= Ravg (fun p : R * R => (fst p)² + (Rmax (snd p) m)²) (combine mus sigmas) - (Ravg (fun u => u) mus)²)%R.
Proof.
  intros mus sigmas m N L. assert (P := mixture_var_nonneg mus sigmas m).
  rewrite Ravg_plus, (Ravg_combine_l (fun u => u²)%R L), (@Ravg_combine_r R R (fun s : R => (Rmax s m)²)%R mus sigmas L).
  unfold mixture_var in P. assert (M := @Ravg_moment R (fun x => x) mus 0%R N). cbn zeta in M.
  rewrite (@Ravg_ext R (fun x => (x - 0)²)%R (fun u => u²)%R) in M by (intros; now rewrite Rminus_0_r). rewrite Rminus_0_r in M. lra.
Qed.
Print Assumptions C53_clamp_idle.
Example C53_example : compute_sigma NumR [1%R; 3%R] [0%R; 2%R] 0%R = Ok (sqrt 3).
Proof.
  rewrite (proj1 (C53_compute_sigma [1%R; 3%R] [0%R; 2%R] 0%R ltac:(discriminate) eq_refl)). f_equal.
  unfold mixture_sigma, Ravg. cbn. f_equal. rewrite !Rmax_left by lra. unfold Rsqr. field.
Qed.

(** ** C54: parallel prediction *)
Theorem C54_schedule_free : forall (N : Num) X (trees : list (tree N)) sched, Permutation sched (seq 0 ((List.length X + 99) / 100)) ->
  match unit_predict_by_trees N X trees with
  | Ok out => predict_by_trees N X trees sched = Ok out
  | Raise _ => exists e, predict_by_trees N X trees sched = Raise e
  end.
Proof.
  intros N X trees sched P. destruct (Nat.leb_spec (List.length X) 100) as [L|L]; [|now apply predict_sequential].
  unfold predict_by_trees. rewrite (proj2 (Nat.leb_le _ _) L). destruct (unit_predict_by_trees N X trees); eauto.
Qed.
Print Assumptions C54_schedule_free.
Theorem C54_parts : forall A (l : list A), (100 < List.length l)%nat -> let parts := array_split l ((List.length l + 99) / 100) in
  concat parts = l /\ List.length parts = ((List.length l + 99) / 100)%nat /\ forall p, In p parts -> (1 <= List.length p <= 100)%nat.
Proof.
  intros A l H parts. assert (K : (0 < (List.length l + 99) / 100)%nat) by (apply Nat.div_str_pos; lia).
  destruct (array_split_spec l K) as (C & L & _). split; [exact C|]. split; [exact L|]. now apply array_split_sizes.
Qed.
Print Assumptions C54_parts.
Theorem C54_row_by_row : forall (N : Num) X (trees : list (tree N)) out, unit_predict_by_trees N X trees = Ok out <->
  Forall2 (fun x p => predict_by_trees_one N x trees = Ok p) X out.
Proof. intros N X trees out. apply mapM_ok_iff. Qed.
Print Assumptions C54_row_by_row.
(** 250 rows, three workers finishing in the order 2, 0, 1 *)
Example C54_example : map (@List.length nat) (array_split (seq 0 250) 3) = [84; 83; 83]%nat /\ Permutation [2; 0; 1]%nat (seq 0 ((250 + 99) / 100)).
Proof.
  split; [vm_compute; reflexivity|]. change (seq 0 ((250 + 99) / 100)) with [0; 1; 2]%nat.
  apply (Permutation_cons_append [0; 1]%nat 2%nat).
Qed.

(** ** C55: subsampling *)
Theorem C55_subsample : forall (N : Num) W choice trunc X Y ratio rep w w' t boot,
  choice_contract choice -> subsample N W choice trunc X Y ratio rep w = (w', t, Ok boot) ->
  exists k idx, trunc (nmul N (nofnat N (nrows X)) ratio) = Some (Z.of_nat k) /\ List.length boot = k /\ List.length idx = k /\
    Forall (fun i => (i < nrows X)%nat) idx /\ (rep = false -> NoDup idx) /\
    forall j i, nth_error idx j = Some i -> exists x y, nth_error boot j = Some (x, y) /\ nth_error (mrows X) i = Some x /\ nth_error Y i = Some y.
Proof.
  intros N W choice trunc X Y ratio rep w w' t boot CC H. apply subsample_ok in H. destruct H as (_ & k & idx & EK & KP & EC & LB & D).
  destruct (CC _ _ _ _ _ _ EC) as (LI & FI & ND). exists (Z.to_nat k), idx. rewrite Z2Nat.id by exact KP. split; [exact EK|]. split; [congruence|]. auto.
Qed.
Print Assumptions C55_subsample.
Example C55_example : ok_map (map (fun r => (map fview (fst r), fview (snd r)))) (snd (subsample NumF unit ex_choice ex_truncF ex_X ex_Y (nlit NumF 1 2) false tt)) =
  Some [([fview (fofZ 0)], fview (fofZ 0)); ([fview (fofZ 1)], fview (fofZ 10))].
Proof. vm_compute. reflexivity. Qed.

(** ** C75: the split kept at a node is optimal *)
From Verif Require Import TreesBest.
Theorem C75_split_optimal : forall W choice uniform nd (s : list (row NumR)) nf w w' t c,
  choice_contract choice -> split_node NumR W choice uniform nd s nf false w = (w', t, Ok (Some c)) ->
  exists fs i v, c = (i, v, split_cost s i v, split_left_right NumR s i v) /\ In i fs /\
    List.length fs = nf /\ NoDup fs /\ Forall (fun d => (d < nd)%nat) fs /\
    forall d u, In d fs -> (List.length (nodup Req_EM_T (map (fun r => nth d (fst r) 0%R) s)) <= 21)%nat -> separates s d u ->
      (split_cost s i v <= split_cost s d u)%R.
Proof. intros W choice uniform nd s nf w w' t c CC H. exact (node_optimal CC H). Qed.
Print Assumptions C75_split_optimal.
Example C75_example : exists c w' t, let s := combine (mrows ex_XR) ex_YR in
  split_node NumR unit ex_choice (ex_uniform NumR) 1 s 1 false tt = (w', t, Ok (Some c)) /\
  separates s 0 2%R /\ (List.length (nodup Req_EM_T (map (fun r => nth 0 (fst r) 0%R) s)) <= 21)%nat.
Proof.
  assert (WD : wide 1 (combine (mrows ex_XR) ex_YR)) by (intros r [<-|[<-|[<-|[]]]]; reflexivity).
  assert (S := split_node_suc ex_choice_contract ex_choice_total (uniform := ex_uniform NumR) (fun lo hi w => ex_intro _ w (ex_intro _ lo eq_refl)) false WD (nf := 1)).
  destruct (S ltac:(discriminate) ltac:(lia) tt) as (w' & t & oc & E & (c & ->)). exists c, w', t. cbv zeta. split; [exact E|]. split.
  - split; [exists ([1%R], 5%R)|exists ([3%R], 2%R)]; (split; [cbn; auto|cbn; lra]).
  - eapply Nat.le_trans; [apply NoDup_incl_length; [apply NoDup_nodup|]|].
    + intros x Hx. apply nodup_In in Hx. exact Hx.
    + cbn. lia.
Qed.
