(** Proofs about targets that overwrite their argument or reuse their result. *)
From Verif Require Import Base Lists Num Monad UtilsModel WrapperModel WrapperSpec WrapperProofs BOModel ThompsonModel MutModel MutSpec.
From Coq Require Import List ZArith Bool Lia.
Import ListNotations.
Set Implicit Arguments.

Lemma bind_same W E A B (m m' : M W E A) (k k' : A -> M W E B) w : m w = m' w -> (forall a w1, k a w1 = k' a w1) -> bind m k w = bind m' k' w.
Proof. intros H K. unfold bind. rewrite H. destruct (m' w) as [[w1 t1] [a|e]]; [rewrite K|]; reflexivity. Qed.
Lemma bind_assoc W E A B C (m : M W E A) (k : A -> M W E B) (k' : B -> M W E C) w : bind (bind m k) k' w = bind m (fun a => bind (k a) k') w.
Proof.
  unfold bind. destruct (m w) as [[w1 t1] [a|e]]; [|reflexivity]. destruct (k a w1) as [[w2 t2] [b|e]]; [|reflexivity].
  destruct (k' b w2) as [[w3 t3] r]. now rewrite app_assoc.
Qed.

Lemma firstn_exact A (l r : list A) n : n = List.length l -> firstn n (l ++ r) = l.
Proof. intros ->. rewrite firstn_app, Nat.sub_diag, firstn_all. cbn. apply app_nil_r. Qed.

Section Mut.
Variables (N : Num) (W : Type) (cell : W -> nat -> N) (target : list N -> W -> W * list N * res (val N)) (time_ : W -> W * N).
Notation snap := (snapshot N W cell target).

Lemma call_copy E B (ev : list N -> res N -> E) x (k : list N -> M W E B) w :
  bind (call_m N W cell target ev x) (fun c => bind (copy N W cell [snd c]) k) w = bind (ext_ev (ev x) (snap x)) (fun y => k [y]) w.
Proof.
  unfold bind, call_m, copy, ext_ev, snapshot. destruct (target x w) as [[w' x'] [v|e]]; cbn; [|reflexivity].
  destruct (k [deref N W cell w' v] w') as [[w2 t2] r]. reflexivity.
Qed.

Section Runs.
Variable single_iteration : mat N -> list N -> W -> W * res (list N * info N).
Notation loopm := (loop_m N W cell target time_ single_iteration).
Lemma loop_pure n : forall X Y ta ts tq w, loopm n X Y ta ts tq w = class_loop N W snap time_ single_iteration n X Y ta ts tq w.
Proof.
  induction n as [|n IH]; intros X Y ta ts tq w; [reflexivity|]. cbn [loop_m class_loop]. apply bind_same.
  - unfold class_step. apply bind_same; [reflexivity|]. intros t0 w1. apply bind_same; [reflexivity|]. intros [p di] w2.
    apply bind_same; [reflexivity|]. intros nb w3. apply bind_same; [reflexivity|]. intros [X' q] w4. apply bind_same; [reflexivity|]. intros te0 w5.
    exact (call_copy EvTarget q _ w5).
  - intros [[[[X' Y'] a] s] c] w1. apply IH.
Qed.
Lemma all_initial_pure num_iter X Y w : all_initial_m N W cell target time_ single_iteration num_iter X Y w = class_all_initial N W snap time_ single_iteration num_iter X Y w.
Proof.
  unfold all_initial_m, class_all_initial. apply bind_same; [reflexivity|]. intros u w1. apply bind_same; [reflexivity|]. intros t0 w2.
  apply bind_same; [apply loop_pure|]. intros r w3. reflexivity.
Qed.

(** one initial evaluation *)
Lemma initial_split x w : exists w' x' r t1 t2, initial_m N W cell target time_ x w
    = (w', [EvTarget x (do v <- r; Ok (deref N W cell t2 v))], do v <- r; Ok (x', v, t1)) /\
  class_initial N W snap time_ x w = (w', [EvTarget x (do v <- r; Ok (deref N W cell t2 v))], do v <- r; Ok (deref N W cell t2 v, t1)) /\
  target x (fst (time_ w)) = (t2, x', r) /\ (w' = match r with Ok _ => fst (time_ t2) | Raise _ => t2 end).
Proof.
  unfold initial_m, class_initial, clock, call_m, call_target, bind, ext, ext_ev, snapshot. destruct (time_ w) as [w1 t0]. cbn [fst].
  destruct (target x w1) as [[w2 x'] [v|e]]; cbn.
  - destruct (time_ w2) as [w3 t1] eqn:T2. cbn. exists w3, x', (Ok v), (nsub N t1 t0), w2. cbn. rewrite T2. auto.
  - exists w2, x', (Raise e), t0, w2. cbn. auto.
Qed.

(** the general form: rows are as the target left them, responses as they are after the last initial evaluation *)
Lemma initials_general rows : forall w w' t l, mmapM (initial_m N W cell target time_) rows w = (w', t, Ok l) ->
  exists cs : list (call N W), map (c_arg N W) cs = rows /\ Forall (returned N W target) cs /\
    calls_of N t = evaluated N (map (pair_of N W cell) cs) /\
    map (fun q => fst (fst q)) l = map (c_left N W) cs /\ map (fun q => snd (fst q)) l = map (c_val N W) cs /\
    (cs = [] \/ exists pre c, cs = (pre ++ [c])%list /\ w' = fst (time_ (c_to N W c))).
Proof.
  induction rows as [|x rows IH]; intros w w' t l E.
  - cbn in E. unfold ret in E. injection E as <- <- <-. exists []. cbn. auto 7.
  - cbn [mmapM] in E. unfold bind at 1 in E. destruct (initial_split x w) as (w1 & x' & r & t1 & w2 & E1 & _ & ET & EW). rewrite E1 in E.
    destruct r as [v|e]; [|discriminate]. cbn in E. unfold bind in E. destruct (mmapM _ rows w1) as [[w3 t3] [l3|e]] eqn:E3; [|discriminate].
    cbn in E. rewrite app_nil_r in E. injection E as <- <- <-. destruct (IH _ _ _ _ E3) as (cs & C1 & C2 & C3 & C4 & C5 & C6).
    exists (mkcall N W x (fst (time_ w)) w2 x' v :: cs). cbn [map c_arg c_left c_val fst snd]. rewrite C1, C4, C5. split; [reflexivity|]. split; [constructor; [exact ET|exact C2]|]. split; [unfold calls_of in *; cbn [flat_map app]; rewrite C3; reflexivity|].
    split; [reflexivity|]. split; [reflexivity|]. right. destruct C6 as [-> | (pre & c & -> & ->)].
    + exists [], (mkcall N W x (fst (time_ w)) w2 x' v). split; [reflexivity|]. cbn in C1. subst rows. cbn in E3. unfold ret in E3. injection E3 as <- _ _. exact EW.
    + exists (mkcall N W x (fst (time_ w)) w2 x' v :: pre), c. auto.
Qed.
Lemma inputs_general num_iter X w w' t o : initial_inputs_m N W cell target time_ single_iteration num_iter X w = (w', t, Ok o) ->
  exists cs wl news, map (c_arg N W) cs = mrows X /\ Forall (returned N W target) cs /\ List.length news = Z.to_nat num_iter /\
    calls_of N t = evaluated N (map (pair_of N W cell) cs ++ news)%list /\
    mrows (ro_X o) = (map (c_left N W) cs ++ map fst news)%list /\
    ro_Y o = (map (fun c => deref N W cell wl (c_val N W c)) cs ++ map snd news)%list /\
    (cs = [] \/ exists pre c, cs = (pre ++ [c])%list /\ wl = fst (time_ (c_to N W c))).
Proof.
  intros E. unfold initial_inputs_m in E. apply bind_ok in E. destruct E as (w1 & t1 & l & t2 & E1 & E2 & ->).
  apply bind_ok in E2. destruct E2 as (w2 & t3 & Y & t4 & E2 & E3 & ->). unfold copy in E2. injection E2 as <- <- <-.
  apply bind_ok in E3. destruct E3 as (w3 & t5 & r & t6 & E3 & E4 & ->). apply ret_ok in E4. destruct E4 as (<- & -> & ->).
  destruct (initials_general _ _ E1) as (cs & C1 & C2 & C3 & C4 & C5 & C6). rewrite all_initial_pure in E3.
  destruct (@all_initial_grows _ _ _ _ _ _ _ _ _ _ _ _ E3) as (news & L & R1 & R2 & _ & _ & R3 & _).
  exists cs, w1, news. split; [exact C1|]. split; [exact C2|]. split; [exact L|]. cbn [ro_X ro_Y]. rewrite R1, R2. cbn [mrows].
  rewrite C4, C5, map_map. split; [|auto]. cbn [app]. rewrite app_nil_r. unfold calls_of in *. rewrite flat_map_app, C3, R3. unfold evaluated. now rewrite map_app.
Qed.

Section Stay.
Variable later : W -> W -> Prop.
Hypotheses (LR : forall w, later w w) (LT : forall a b c, later a b -> later b c -> later a c)
  (L1 : forall x w, later w (fst (fst (target x w)))) (L2 : forall w, later w (fst (time_ w)))
  (ST : forall x w w' x' v w'', target x w = (w', x', Ok v) -> later w' w'' -> deref N W cell w'' v = deref N W cell w' v)
  (LA : leaves_argument N W target).
Lemma initials_pure rows : forall w,
  match mmapM (class_initial N W snap time_) rows w with
  | (w', t, Ok l) => later w w' /\ exists l', mmapM (initial_m N W cell target time_) rows w = (w', t, Ok l') /\
      map (fun q => fst (fst q)) l' = rows /\ map snd l' = map snd l /\
      forall w'', later w' w'' -> map (deref N W cell w'') (map (fun q => snd (fst q)) l') = map fst l
  | (w', t, Raise e) => mmapM (initial_m N W cell target time_) rows w = (w', t, Raise e)
  end.
Proof.
  induction rows as [|x rows IH]; intros w.
  - cbn. unfold ret. split; [apply LR|]. exists []. auto.
  - cbn [mmapM]. unfold bind at 1. destruct (initial_split x w) as (w1 & x' & r & t1 & w2 & E1 & E2 & ET & EW). rewrite E2.
    destruct r as [v|e]; cbn [rbind]; cycle 1.
    { unfold bind at 1. rewrite E1. reflexivity. }
    specialize (IH w1). unfold bind at 1. destruct (mmapM _ rows w1) as [[w3 t3] [l3|e]].
    + destruct IH as (L3 & l' & E3 & Q1 & Q2 & Q3). cbn.
      assert (A : later (fst (time_ w)) w2) by (pose proof (L1 x (fst (time_ w))) as Z0; rewrite ET in Z0; exact Z0).
      assert (B : later w2 w1) by (rewrite EW; apply L2).
      split; [exact (LT (L2 w) (LT A (LT B L3)))|]. exists ((x', v, t1) :: l'). split.
      { unfold bind at 1. rewrite E1. cbn [rbind]. unfold bind. rewrite E3. cbn. reflexivity. }
      cbn. rewrite Q1, Q2. split; [now rewrite (LA ET)|]. split; [reflexivity|]. intros w'' L''. rewrite (Q3 _ L''). f_equal.
      apply (ST ET). exact (LT B (LT L3 L'')).
    + unfold bind at 1. rewrite E1. cbn [rbind]. unfold bind. rewrite IH. reflexivity.
Qed.
Lemma inputs_pure num_iter X w : initial_inputs_m N W cell target time_ single_iteration num_iter X w
  = class_initial_inputs N W snap time_ single_iteration num_iter X w.
Proof.
  unfold initial_inputs_m, class_initial_inputs. pose proof (initials_pure (mrows X) w) as P. unfold bind at 1. unfold bind at 3.
  destruct (mmapM (class_initial N W snap time_) (mrows X) w) as [[w1 t1] [l|e]].
  - destruct P as (_ & l' & -> & Q1 & Q2 & Q3). unfold bind at 1. unfold copy at 1. rewrite (Q3 w1 (LR w1)), Q1, Q2.
    replace (mkmat (mrows X) (mcols X)) with X by (destruct X; reflexivity).
    rewrite (bind_same _ (class_all_initial N W snap time_ single_iteration num_iter X (map fst l)) _ _ _ (all_initial_pure num_iter X (map fst l) w1) (fun a w2 => eq_refl)).
    unfold bind. destruct (class_all_initial _ _ _ _ _ _ _ _ w1) as [[w2 t2] [r|e]]; reflexivity.
  - rewrite P. reflexivity.
Qed.
End Stay.
End Runs.

(** Thompson sampling *)
Section Thompson.
Variables (G : Type) (mvn : list N -> list (list N) -> W -> W * res G) (rvs : G -> W -> W * res (list N)) (lav : bool) (nexp nlog : N -> N) (npi : N)
  (inv chol : list (list N) -> res (list (list N))) (cho_solve : list (list N) -> list (list N) -> res (list (list N)))
  (slogdet : list (list N) -> N * N) (minimize : HypOptModel.minimizer N) (da ca : bool)
  (get_samples get_initials : list (N * N) -> String.string -> Z -> option Z -> W -> W * res (list (list N)))
  (range_X : list (N * N)) (normalize_Y : bool) (method : String.string) (num_samples : Z).
Notation iteration := (fun X Y => ts_iteration mvn rvs lav nexp nlog npi inv chol cho_solve slogdet minimize da ca get_samples range_X X Y normalize_Y method num_samples).
Notation ts_loop_pure := (ts_loop mvn rvs lav nexp nlog npi inv chol cho_solve slogdet minimize da ca get_samples snap range_X normalize_Y method num_samples).
Lemma ts_pure n : forall X Y w, ts_loop_m N W cell target iteration n X Y w = ts_loop_pure n X Y w.
Proof.
  induction n as [|n IH]; intros X Y w; [reflexivity|]. cbn [ts_loop_m ts_loop]. apply bind_same; [reflexivity|]. intros p w1.
  apply bind_same; [reflexivity|]. intros [X' q] w2. rewrite (call_copy TsTarget p _ w2). apply bind_same; [reflexivity|]. intros y w3. apply IH.
Qed.
Section Stay.
Variable later : W -> W -> Prop.
Hypotheses (LR : forall w, later w w) (LT : forall a b c, later a b -> later b c -> later a c)
  (L1 : forall x w, later w (fst (fst (target x w))))
  (ST : forall x w w' x' v w'', target x w = (w', x', Ok v) -> later w' w'' -> deref N W cell w'' v = deref N W cell w' v)
  (LA : leaves_argument N W target).
Lemma ts_split x w : exists w1 x' r, target x w = (w1, x', r) /\
  ts_target N snap x w = (w1, [TsTarget x (do v <- r; Ok (deref N W cell w1 v))], do v <- r; Ok (deref N W cell w1 v)) /\
  call_m N W cell target TsTarget x w = (w1, [TsTarget x (do v <- r; Ok (deref N W cell w1 v))], do v <- r; Ok (x', v)).
Proof. unfold ts_target, ext_ev, snapshot, call_m. destruct (target x w) as [[w1 x'] r]. exists w1, x', r. auto. Qed.
Lemma ts_initials_pure rows : forall w,
  match mmapM (ts_target N snap) rows w with
  | (w', t, Ok l) => later w w' /\ exists l', mmapM (call_m N W cell target TsTarget) rows w = (w', t, Ok l') /\
      map fst l' = rows /\ forall w'', later w' w'' -> map (deref N W cell w'') (map snd l') = l
  | (w', t, Raise e) => mmapM (call_m N W cell target TsTarget) rows w = (w', t, Raise e)
  end.
Proof.
  induction rows as [|x rows IH]; intros w.
  - cbn. unfold ret. split; [apply LR|]. exists []. auto.
  - cbn [mmapM]. unfold bind at 1. destruct (ts_split x w) as (w1 & x' & r & ET & E2 & E1). rewrite E2.
    destruct r as [v|e]; cbn [rbind]; cycle 1.
    { unfold bind at 1. rewrite E1. reflexivity. }
    specialize (IH w1). unfold bind at 1. destruct (mmapM (ts_target N snap) rows w1) as [[w3 t3] [l3|e]].
    + destruct IH as (L3 & l' & E3 & Q1 & Q3). cbn.
      assert (A : later w w1) by (pose proof (L1 x w) as Z0; rewrite ET in Z0; exact Z0).
      split; [exact (LT A L3)|]. exists ((x', v) :: l'). split.
      { unfold bind at 1. rewrite E1. cbn [rbind]. unfold bind. rewrite E3. cbn. reflexivity. }
      cbn. rewrite Q1. split; [now rewrite (LA ET)|]. intros w'' L''. rewrite (Q3 _ L''). f_equal. apply (ST ET). exact (LT L3 L'').
    + unfold bind at 1. rewrite E1. cbn [rbind]. unfold bind. rewrite IH. reflexivity.
Qed.
Lemma thompson_pure num_init num_iter w :
  thompson_m N W cell target iteration
    (mlet _ <- lift (default_bo N da ca range_X);
     mlet rows <- points TsInit (get_initials range_X method num_init None);
     lift (np_array_rows rows)) num_iter w
  = thompson_sampling_gp mvn rvs lav nexp nlog npi inv chol cho_solve slogdet minimize da ca get_samples get_initials snap range_X num_init num_iter
      normalize_Y method num_samples w.
Proof.
  unfold thompson_m, thompson_sampling_gp. rewrite bind_assoc. apply bind_same; [reflexivity|]. intros u w1. rewrite bind_assoc. apply bind_same; [reflexivity|].
  intros rows w2. apply bind_same; [reflexivity|]. intros X w3. pose proof (ts_initials_pure (mrows X) w3) as P. unfold bind at 1. unfold bind at 2.
  destruct (mmapM (ts_target N snap) (mrows X) w3) as [[w4 t4] [l|e]].
  - destruct P as (_ & l' & -> & Q1 & Q3). unfold bind at 1. unfold copy at 1. rewrite (Q3 w4 (LR w4)), Q1.
    replace (mkmat (mrows X) (mcols X)) with X by (destruct X; reflexivity). rewrite ts_pure. cbn [app].
    destruct (ts_loop_pure (Z.to_nat num_iter) X l w4) as [[w5 t5] r]. reflexivity.
  - rewrite P. reflexivity.
Qed.
End Stay.
End Thompson.
End Mut.

Lemma evaluated_app (N : Num) l l' : evaluated N (l ++ l') = (evaluated N l ++ evaluated N l')%list.
Proof. unfold evaluated. apply map_app. Qed.
Lemma overwritten (N : Num) (W : Type) (f : list N -> N) (g : list N -> list N) cell time_ single_iteration num_iter X (w w' : W) t o :
  initial_inputs_m N W cell (fun x w => (w, g x, Ok (VNum (f x)))) time_ single_iteration num_iter X w = (w', t, Ok o) ->
  firstn (nrows X) (mrows (ro_X o)) = map g (mrows X) /\
  firstn (nrows X) (calls_of N t) = evaluated N (map (fun x => (x, f x)) (mrows X)).
Proof.
  intros E. destruct (inputs_general _ _ _ _ _ _ _ E) as (cs & wl & news & C1 & C2 & _ & C4 & C5 & _ & _).
  assert (L : List.length cs = nrows X) by (unfold nrows; rewrite <- C1; now rewrite map_length).
  assert (Q : map (c_left N W) cs = map g (mrows X) /\ map (pair_of N W cell) cs = map (fun x => (x, f x)) (mrows X)).
  { rewrite <- C1, !map_map. split; apply map_ext_in; intros c I; pose proof (proj1 (Forall_forall _ _) C2 c I) as R; unfold returned in R; injection R as R1 R2 R3.
    - now symmetry.
    - unfold pair_of. now rewrite <- R3. }
  destruct Q as [Q1 Q2]. rewrite C4, C5, evaluated_app, Q1, Q2. split; apply firstn_exact; unfold evaluated; rewrite ?map_length; reflexivity.
Qed.
Lemma reused (N : Num) (W : Type) (f : list N -> N) time_ single_iteration num_iter X x (w w' : N * W) t o :
  (forall w, fst (fst (time_ w)) = fst w) ->
  initial_inputs_m N (N * W) (fun w _ => fst w) (fun x w => (f x, snd w, x, Ok (VRef 0))) time_ single_iteration num_iter X w = (w', t, Ok o) ->
  (exists pre, mrows X = pre ++ [x])%list ->
  firstn (nrows X) (ro_Y o) = repeat (f x) (nrows X) /\
  firstn (nrows X) (calls_of N t) = evaluated N (map (fun x => (x, f x)) (mrows X)).
Proof.
  intros HT E [pre EX]. destruct (inputs_general _ _ _ _ _ _ _ E) as (cs & wl & news & C1 & C2 & _ & C4 & _ & C6 & C7).
  assert (L : List.length cs = nrows X) by (unfold nrows; rewrite <- C1; now rewrite map_length).
  assert (R : forall c, In c cs -> fst (c_to N (N * W) c) = f (c_arg N (N * W) c) /\ c_val N (N * W) c = VRef 0).
  { intros c I. pose proof (proj1 (Forall_forall _ _) C2 c I) as R; unfold returned in R. injection R as R1 R2 R3. rewrite <- R1. auto. }
  assert (Q : map (pair_of N (N * W) (fun w _ => fst w)) cs = map (fun x => (x, f x)) (mrows X)).
  { rewrite <- C1, map_map. apply map_ext_in. intros c I. destruct (R c I) as [R1 R2]. unfold pair_of. rewrite R2. cbn. now rewrite R1. }
  assert (WL : fst wl = f x).
  { destruct C7 as [-> | (pre' & c & -> & ->)]; [cbn in C1; rewrite EX in C1; destruct pre; discriminate|].
    rewrite HT. destruct (R c) as [-> _]; [apply in_or_app; right; now left|]. f_equal. rewrite EX, map_app in C1. cbn in C1. now apply app_inj_tail in C1. }
  rewrite C4, C6, evaluated_app, Q. split.
  - rewrite firstn_exact by (rewrite map_length; now symmetry). rewrite <- L. clear - R WL. induction cs as [|c cs IH]; [reflexivity|]. cbn [map List.length repeat]. f_equal.
    + destruct (R c (or_introl eq_refl)) as [_ ->]. exact WL.
    + apply IH. intros c' I. apply R. now right.
  - apply firstn_exact. unfold evaluated. now rewrite !map_length.
Qed.
