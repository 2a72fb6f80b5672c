(** Changing the units of the inputs: samplers, proposals of random forests, whole runs. *)
From Verif Require Import Base Lists Num NumLaws UtilsModel UtilsRProofs Monad HypsModel CovModel GPModel LikModel HypOptModel AcqModel TreesModel TreesSpec TreesUnitsSpec TreesUnits
  SamplingModel WrapperModel BOModel BOAcqModel BOFullModel BOProgram RelProofs MoveSpec.
From Coq Require Import List ZArith Bool String Lia Lra Arith Reals.
From Flocq Require Import Core.Raux.
Import ListNotations.
Unset Asymmetric Patterns.
Set Bullet Behavior "Strict Subproofs".
Local Open Scope R_scope.
Notation N := NumR.

Lemma conv_bind {W E E' A B C D} (fe : E -> E') (fa : A -> B) (fc : C -> D) m m' k k' (w : W) : m' w = converted fe fa (m w) ->
  (forall a w, k' (fa a) w = converted fe fc (k a w)) -> bind m' k' w = converted fe fc (bind m k w).
Proof.
  intros H K. unfold bind. rewrite H. destruct (m w) as [[w1 t] [a|e]]; cbn [converted rmap]; [|reflexivity]. rewrite K.
  destruct (k a w1) as [[w2 t2] r]. cbn [converted]. now rewrite map_app.
Qed.

Section Axes.
Context (ax : axes) (HA : sound_axes ax).
Notation nd := (List.length ax).
Notation ci := (conv_in ax).
Definition sizedm (X : mat N) : Prop := Forall (fun x => List.length x = nd) (mrows X).

Lemma conv_in_le x : List.length (ci x) = Nat.min nd (List.length x).
Proof. revert x. generalize ax. clear. intros ax0. induction ax0 as [|a l IH]; intros [|v x]; cbn; [reflexivity..|]. now rewrite IH. Qed.
Lemma conv_in_len x : List.length x = nd -> List.length (ci x) = nd.
Proof. intros H. rewrite conv_in_le, H. lia. Qed.
Lemma conv_range_len : forall (ax : axes) r, List.length r = List.length ax -> List.length (conv_range ax r) = List.length r.
Proof. intros ax0; induction ax0 as [|a l IH]; intros [|b r] H; cbn in *; try reflexivity; try discriminate. f_equal. apply IH. now injection H. Qed.
Lemma range_ok_conv : forall ax, sound_axes ax -> forall r, List.length r = List.length ax -> range_ok N (conv_range ax r) = range_ok N r.
Proof.
  clear. intros ax; induction ax as [|[s o] l IH]; intros HA [|[lo hi] r] H; cbn in *; try reflexivity; try discriminate. inversion HA as [|? ? P Q]; subst. cbn in P.
  f_equal; [exact (axis_le (ac := (s, o)) P lo hi)|]. apply IH; [exact Q|now injection H].
Qed.

(** ** samplers *)
Lemma uniform_elt (ac : R * R) (lo hi u : R) : u * (on_axis ac hi - on_axis ac lo) + on_axis ac lo = on_axis ac (u * (hi - lo) + lo).
Proof. unfold on_axis. ring. Qed.
Lemma linspace_elt_conv (ac : R * R) (lo hi : R) : 0 < fst ac -> forall n i, linspace_elt N (on_axis ac lo) (on_axis ac hi) n i = on_axis ac (linspace_elt N lo hi n i).
Proof.
  intros P n i. unfold linspace_elt. destruct n as [|[|n]]; [reflexivity|apply uniform_elt|]. destruct (Nat.eqb i (S n)); [reflexivity|].
  cbn [neqb nsub ndiv nmul nadd NumR nofZ]. set (dv := nofnat N (S n)). assert (D : (dv : R) <> 0).
  { unfold dv, nofnat. cbn [nofZ NumR]. apply not_0_IZR. lia. }
  set (k := nofnat N i). clearbody dv k. cbn in dv, k.
  assert (E : (on_axis ac hi - on_axis ac lo) / dv = fst ac * ((hi - lo) / dv)) by (unfold on_axis; field; exact D).
  rewrite E. destruct (Req_dec (hi - lo) 0) as [Z|NZ].
  - rewrite Z. rewrite !Req_bool_true by (unfold Rdiv; ring). rewrite <- Z. apply uniform_elt.
  - assert (Q : (hi - lo) / dv <> 0) by (unfold Rdiv; apply Rmult_integral_contrapositive_currified; [exact NZ|now apply Rinv_neq_0_compat]).
    rewrite !Req_bool_false; [|exact Q|apply Rmult_integral_contrapositive_currified; [lra|exact Q]]. unfold on_axis. match goal with |- @eq _ ?u ?v => change (@eq R u v) end. ring.
Qed.
Lemma linspace_conv (ac : R * R) (lo hi : R) num : 0 < fst ac -> linspace N (on_axis ac lo) (on_axis ac hi) num = rmap (map (on_axis ac)) (linspace N lo hi num).
Proof.
  intros P. unfold linspace. destruct (num <? 0)%Z; [reflexivity|]. cbn [rmap]. f_equal. rewrite map_map. apply map_ext. intros i. now apply linspace_elt_conv.
Qed.
(** one converted list of values for each coordinate *)
Fixpoint conv_lists (ax : axes) (ls : list (list R)) : list (list R) := match ax, ls with ac :: ax, l :: ls => map (on_axis ac) l :: conv_lists ax ls | _, _ => [] end.
Lemma mapM_lin_len num : forall (r : list (R * R)) ls, mapM (fun r => linspace N (fst r) (snd r) num) r = Ok ls -> List.length ls = List.length r.
Proof. induction r as [|b r IH]; intros ls H; cbn in H; [injection H as <-; reflexivity|]. destruct (linspace _ _ _ _); [|discriminate]. cbn in H. destruct (mapM _ r) as [l|] eqn:E; [|discriminate]. cbn in H. injection H as <-. cbn. f_equal. now apply IH. Qed.
Lemma mapM_lin num : forall ax, sound_axes ax -> forall r, List.length r = List.length ax ->
  mapM (fun r => linspace N (fst r) (snd r) num) (conv_range ax r) = rmap (conv_lists ax) (mapM (fun r => linspace N (fst r) (snd r) num) r).
Proof.
  clear. intros ax; induction ax as [|ac l IH]; intros HA [|b r] H; cbn in *; try reflexivity; try discriminate. inversion HA as [|? ? P Q]; subst. injection H as H.
  rewrite linspace_conv by exact P. destruct (linspace N (fst b) (snd b) num) as [v|]; [|reflexivity]. cbn [rmap rbind].
  setoid_rewrite (IH Q r H). destruct (mapM _ r) as [ls|]; reflexivity.
Qed.
Lemma cprod_conv : forall (ax : axes) ls, List.length ls = List.length ax -> cprod (conv_lists ax ls) = map (conv_in ax) (cprod ls).
Proof.
  clear. intros ax; induction ax as [|ac a IH]; intros [|l ls] H; cbn in *; try reflexivity; try discriminate. injection H as H. rewrite (IH ls H).
  induction l as [|v l IL]; [reflexivity|]. cbn [map flat_map]. rewrite map_app, IL. f_equal. rewrite !map_map. reflexivity.
Qed.
Lemma cprod_len {A} : forall (ls : list (list A)) x, In x (cprod ls) -> List.length x = List.length ls.
Proof. induction ls as [|l ls IH]; cbn; intros x H; [destruct H as [<-|[]]; reflexivity|]. apply in_flat_map in H as (v & _ & H). apply in_map_iff in H as (y & <- & H). cbn. f_equal. now apply IH. Qed.
Lemma swap_lists : forall (ax : axes) ls, List.length ls = List.length ax -> swap01 (conv_lists ax ls) = conv_lists (swap01 ax) (swap01 ls).
Proof. intros [|a [|b l]] [|u [|v m]] H; try discriminate; reflexivity. Qed.
Lemma swap_in : forall (ax : axes) (x : list R), List.length x = List.length ax -> swap01 (conv_in (swap01 ax) x) = conv_in ax (swap01 x).
Proof. intros [|a [|b l]] [|u [|v m]] H; try discriminate; reflexivity. Qed.
Lemma swap_len {A} (l : list A) : List.length (swap01 l) = List.length l.
Proof. destruct l as [|a [|b l]]; reflexivity. Qed.
Lemma grids_conv (r : list (R * R)) num : List.length r = nd -> get_grids N (conv_range ax r) num = rmap (map ci) (get_grids N r num).
Proof.
  intros H. unfold get_grids. change (forallb (fun r0 => nle N (fst r0) (snd r0)) (conv_range ax r)) with (range_ok N (conv_range ax r)).
  rewrite range_ok_conv by assumption. change (forallb (fun r0 => nle N (fst r0) (snd r0)) r) with (range_ok N r). destruct (range_ok N r); [|reflexivity]. cbn [assert_ rbind].
  etransitivity; [apply (f_equal (fun z => rbind z _)); exact (mapM_lin num ax HA r H)|].
  destruct (mapM (fun r => linspace N (fst r) (snd r) num) r) as [ls|] eqn:E; [|reflexivity]. apply mapM_lin_len in E. cbn [rmap rbind].
  assert (HL : List.length ls = nd) by (eapply eq_trans; [exact E|exact H]).
  destruct ls as [|l0 ls0]; [destruct ax; [reflexivity|discriminate]|]. destruct ax as [|ac a] eqn:EA; [discriminate|]. rewrite <- EA in *. clear EA.
  set (ls := l0 :: ls0) in *.
  assert (ED : conv_lists ax ls <> []) by (unfold ls in *; destruct ax; [discriminate|cbn; discriminate]).
  destruct (conv_lists ax ls) eqn:EC; [congruence|]. rewrite <- EC. cbn [rmap]. f_equal. rewrite swap_lists by exact HL.
  rewrite cprod_conv by (rewrite !swap_len; exact HL). rewrite !map_map. apply map_ext_in. intros x Hx. apply swap_in.
  eapply eq_trans; [exact (cprod_len _ _ Hx)|]. rewrite swap_len. exact HL.
Qed.
Lemma grids_sized (r : list (R * R)) num l : List.length r = nd -> get_grids N r num = Ok l -> Forall (fun x => List.length x = nd) l.
Proof.
  intros H E. unfold get_grids in E. destruct (assert_ _); [|discriminate]. cbn [rbind] in E. destruct (mapM (fun r => linspace N (fst r) (snd r) num) r) as [ls|] eqn:EM; [|discriminate]. apply mapM_lin_len in EM. cbn [rbind] in E.
  destruct ls as [|l0 ls0]; [discriminate|]. injection E as <-. apply Forall_forall. intros x Hx. apply in_map_iff in Hx as (y & <- & Hy). eapply eq_trans; [apply swap_len|]. eapply eq_trans; [exact (cprod_len _ _ Hy)|]. eapply eq_trans; [apply (swap_len (l0 :: ls0))|]. eapply eq_trans; [exact EM|exact H].
Qed.

Section Samplers.
Context (W G : Type) (mkstate : option Z -> W -> W * res G) (unit_draw gauss_draw : G -> G * N).
Context (qmc : qmc_kind -> nat -> option Z -> Z -> W -> W * res (list (list N))).

Lemma max2_conv (ac : R * R) (x y : R) : 0 < fst ac -> npmax2 N (on_axis ac x) (on_axis ac y) = on_axis ac (npmax2 N x y).
Proof. intros P. unfold npmax2. cbn [nisnan NumR nlt]. rewrite (axis_lt (ac := ac) P x y). destruct (Rlt_bool x y); reflexivity. Qed.
Lemma min2_conv (ac : R * R) (x y : R) : 0 < fst ac -> npmin2 N (on_axis ac x) (on_axis ac y) = on_axis ac (npmin2 N x y).
Proof. intros P. unfold npmin2. cbn [nisnan NumR nlt]. rewrite (axis_lt (ac := ac) P y x). destruct (Rlt_bool y x); reflexivity. Qed.
Lemma npclip_conv (ac : R * R) (x lo hi : R) : 0 < fst ac -> npclip N (on_axis ac x) (on_axis ac lo) (on_axis ac hi) = on_axis ac (npclip N x lo hi).
Proof. intros P. unfold npclip. rewrite (max2_conv ac x lo P). apply (min2_conv ac _ hi P). Qed.
(** one draw for one coordinate *)
Definition conv_one (one : N -> N -> G -> G * res N) : Prop := forall (ac : R * R) (lo hi : R) g, 0 < fst ac ->
  one (on_axis ac lo) (on_axis ac hi) g = let (g', r) := one lo hi g in (g', rmap (on_axis ac) r).
Lemma uniform_one : conv_one (rs_uniform N unit_draw).
Proof.
  intros ac lo hi g P. unfold rs_uniform, nfinite. cbn [nltinf NumR andb]. destruct (unit_draw g) as [g' u]. cbn [rmap]. do 2 f_equal. apply uniform_elt.
Qed.
Lemma gaussian_one : conv_one (rs_gaussian N gauss_draw).
Proof.
  intros ac lo hi g P. unfold rs_gaussian. destruct (gauss_draw g) as [g' z]. cbn [rmap]. do 2 f_equal. rewrite <- npclip_conv by exact P. f_equal.
  cbn [nadd nmul nsub ndiv NumR nofZ]. unfold on_axis. match goal with |- @eq _ ?u ?v => change (@eq R u v) end. field.
Qed.
Lemma draw_row_conv one : conv_one one -> forall ax, sound_axes ax -> forall r, List.length r = List.length ax -> forall g,
  draw_row N one (conv_range ax r) g = converted (fun e => e) (conv_in ax) (draw_row N one r g).
Proof.
  intros H1. clear HA. unfold draw_row. intros ax0; induction ax0 as [|ac l IH]; intros HA [|b r] H g; cbn in H; try discriminate; [reflexivity|]. inversion HA as [|? ? P Q]; subst. injection H as H.
  destruct b as [lo hi]. cbn [conv_range mmapM fst snd]. apply conv_bind with (fa := on_axis ac).
  - unfold ext. rewrite (H1 ac lo hi g P). destruct (one lo hi g) as [g1 v]. reflexivity.
  - intros v g1. apply conv_bind with (fa := conv_in l); [exact (IH Q r H g1)|]. intros x g2. reflexivity.
Qed.
Lemma draw_row_sized (one : N -> N -> G -> G * res N) (r : list (R * R)) : forall g g' t x, draw_row N one r g = (g', t, Ok x) -> List.length x = List.length r.
Proof.
  unfold draw_row. induction r as [|b r IH]; intros g g' t x H; cbn [mmapM] in H; minv; [subst; reflexivity|]. subst x. cbn. f_equal. eapply IH; eassumption.
Qed.
Lemma draw_rows_conv one (r : list (R * R)) num : conv_one one -> List.length r = nd -> forall g, draw_rows N one (conv_range ax r) num g = converted (fun e => e) (map ci) (draw_rows N one r num g).
Proof.
  intros H1 H. unfold draw_rows. generalize (seq 0 (Z.to_nat num)). induction l as [|k l IH]; intros g; [reflexivity|]. cbn [mmapM].
  apply conv_bind with (fa := ci); [exact (draw_row_conv one H1 ax HA r H g)|]. intros x g1. apply conv_bind with (fa := map ci); [apply IH|]. intros xs g2. reflexivity.
Qed.
Lemma draw_rows_sized (one : N -> N -> G -> G * res N) (r : list (R * R)) num g g' t l : draw_rows N one r num g = (g', t, Ok l) -> Forall (fun x => List.length x = List.length r) l.
Proof.
  unfold draw_rows. revert g g' t l. generalize (seq 0 (Z.to_nat num)). induction l as [|k l IH]; intros g g' t xs H; cbn [mmapM] in H; minv; [subst; constructor|]. subst xs.
  constructor; [eapply draw_row_sized; eassumption|eapply IH; eassumption].
Qed.
Lemma with_state_conv one (r : list (R * R)) num seed w : conv_one one -> List.length r = nd ->
  with_state N mkstate one (conv_range ax r) num seed w = let (w', x) := with_state N mkstate one r num seed w in (w', rmap (map ci) x).
Proof.
  intros H1 H. unfold with_state. destruct (mkstate seed w) as [w1 [g|e]]; [|reflexivity]. rewrite (draw_rows_conv one r num H1 H g).
  destruct (draw_rows N one r num g) as [[g' t] x]. reflexivity.
Qed.
Lemma with_state_sized (one : N -> N -> G -> G * res N) (r : list (R * R)) num seed w w' l : List.length r = nd -> with_state N mkstate one r num seed w = (w', Ok l) -> Forall (fun x => List.length x = nd) l.
Proof.
  intros H E. unfold with_state in E. destruct (mkstate seed w) as [w1 [g|e]]; [|discriminate]. injection E as _ E. destruct (draw_rows N one r num g) as [[g' t] x] eqn:ED. cbn in E. subst x.
  rewrite <- H. eapply draw_rows_sized; eassumption.
Qed.
Lemma scale_row_conv : forall (ax : axes) (r : list (R * R)) u, List.length r = List.length ax -> scale_row N (conv_range ax r) u = conv_in ax (scale_row N r u).
Proof.
  unfold scale_row. intros ax0; induction ax0 as [|ac l IH]; intros [|[lo hi] r] u H; cbn in H; try discriminate; [destruct u; reflexivity|]. injection H as H.
  destruct u as [|v u]; [reflexivity|]. cbn [conv_range combine map conv_in]. rewrite (IH r u H). f_equal. apply uniform_elt.
Qed.
Theorem samples_conv (r : list (R * R)) m num seed w : List.length r = nd ->
  get_samples N mkstate unit_draw gauss_draw qmc (conv_range ax r) m num seed w =
  let (w', x) := get_samples N mkstate unit_draw gauss_draw qmc r m num seed w in (w', rmap (map ci) x).
Proof.
  intros H. unfold get_samples. destruct (negb _); [reflexivity|]. destruct (String.eqb m "grid"); [now rewrite grids_conv|].
  destruct (String.eqb m "uniform"); [apply with_state_conv; [apply uniform_one|exact H]|].
  destruct (String.eqb m "gaussian"); [apply with_state_conv; [apply gaussian_one|exact H]|].
  assert (HQ : forall k, get_samples_qmc N qmc k (conv_range ax r) num seed w = let (w', x) := get_samples_qmc N qmc k r num seed w in (w', rmap (map ci) x)).
  { intros k. unfold get_samples_qmc. rewrite conv_range_len by exact H. destruct (qmc k _ seed num w) as [w1 [s|e]]; [|reflexivity]. cbn [rmap]. rewrite map_map. do 2 f_equal.
    apply map_ext. intros u. now apply scale_row_conv. }
  destruct (String.eqb m "sobol"); [apply HQ|]. destruct (String.eqb m "halton"); [apply HQ|]. reflexivity.
Qed.
Theorem samples_sized (r : list (R * R)) m num seed w w' l : qmc_rows qmc -> List.length r = nd ->
  get_samples N mkstate unit_draw gauss_draw qmc r m num seed w = (w', Ok l) -> Forall (fun x => List.length x = nd) l.
Proof.
  intros HQ H E. unfold get_samples in E. destruct (negb _); [discriminate|]. destruct (String.eqb m "grid"); [injection E as _ E; eapply grids_sized; eassumption|].
  destruct (String.eqb m "uniform"); [eapply with_state_sized; eassumption|]. destruct (String.eqb m "gaussian"); [eapply with_state_sized; eassumption|].
  assert (HK : forall k, get_samples_qmc N qmc k r num seed w = (w', Ok l) -> Forall (fun x => List.length x = nd) l).
  { intros k Q. unfold get_samples_qmc in Q. destruct (qmc k _ seed num w) as [w1 [s|e]] eqn:EQ; [|discriminate]. injection Q as _ <-. apply HQ in EQ. apply Forall_forall. intros x Hx.
    apply in_map_iff in Hx as (u & <- & Hu). pose proof (proj1 (Forall_forall _ _) EQ u Hu) as HL. cbn in HL. unfold scale_row. rewrite map_length, combine_length.
    transitivity (Nat.min (List.length r) (List.length r)); [f_equal; exact HL|]. rewrite Nat.min_id. exact H. }
  destruct (String.eqb m "sobol"); [now apply (HK Sobol)|]. destruct (String.eqb m "halton"); [now apply (HK Halton)|]. discriminate.
Qed.
End Samplers.
End Axes.
