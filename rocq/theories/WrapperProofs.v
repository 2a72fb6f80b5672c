From Verif Require Import Base Lists Num NumLaws UtilsModel UtilsSpec UtilsProofs Monad WrapperModel WrapperSpec.
From Coq Require Import List ZArith Bool String Lia Arith.

Lemma bool_dec_false b : b <> true -> b = false. Proof. destruct b; congruence. Qed.

Section Proofs.
Context (N : Num) (W : Type).
Notation Mo := (M W (event N)).
Context (fun_target : list N -> W -> W * res N).
Context (time_ : W -> W * N).
Notation clock := (clock N W time_).
Notation call_target := (call_target N W fun_target).

Lemma fresh_same rows p : fresh N rows p <-> fresh_from N rows p.
Proof.
  unfold fresh, fresh_from, close. split; intros H q Hq; specialize (H q Hq).
  - congruence.
  - now apply bool_dec_false.
Qed.

Definition picked (X : mat N) (next : list N) (di : info N) (x : list N) : Prop :=
  get_next_best_sample N next X (in_points di) (in_acqs di) = Ok (Some x) /\ List.length x = mcols X.

Lemma existsb_close X next : existsb (fun x => nlt N (nnorm N (vsub N next x)) (tol_dup N)) X = false <-> fresh_from N X next.
Proof.
  unfold fresh_from, close. change (nlit N 1 100000000) with (tol_dup N). split.
  - intros H q Hq C. assert (existsb (fun x => nlt N (nnorm N (vsub N next x)) (tol_dup N)) X = true) by (apply existsb_exists; eauto). congruence.
  - intros H. apply bool_dec_false. rewrite existsb_exists. intros (q & Hq & C). exact (H q Hq C).
Qed.

Lemma picked_good (O : NumOrd N) X next di x : picked X next di x -> good_query N (mrows X) next (mrows (in_points di)) x.
Proof.
  intros [G _]. unfold get_next_best_sample in G.
  destruct (negb (Nat.eqb (List.length next) (mcols X))); [discriminate|].
  destruct (existsb _ (mrows X)) eqn:E.
  - assert (NF : ~ fresh_from N (mrows X) next) by (rewrite <- existsb_close; congruence).
    destruct (@next_best_fresh N O (in_points di) (in_acqs di) X x G) as [(k & v & Hk & _ & Hf & _)|(H1 & H2)].
    + right. left. split; [exact NF|]. split; [eapply nth_error_In; exact Hk|now apply fresh_same].
    + right. right. split; [exact NF|]. split; [|exact H2].
      intros q Hq F. apply (H1 q Hq). now apply fresh_same.
  - apply existsb_close in E. injection G as <-. left. auto.
Qed.

Inductive BOTrace : nat -> mat N -> list N -> list (event N) -> res (mat N * list N) -> Prop :=
| bt_done X Y : BOTrace 0 X Y [] (Ok (X, Y))
| bt_model n X Y e : BOTrace (S n) X Y [EvModel X Y (Raise e)] (Raise e)
| bt_pick n X Y next di e :
    rbind (get_next_best_sample N next X (in_points di) (in_acqs di)) (vstack_row N X) = Raise e ->
    BOTrace (S n) X Y [EvModel X Y (Ok (next, di))] (Raise e)
| bt_target n X Y next di x e : picked X next di x ->
    BOTrace (S n) X Y [EvModel X Y (Ok (next, di)); EvTarget x (Raise e)] (Raise e)
| bt_step n X Y next di x y t r : picked X next di x ->
    BOTrace n (mkmat (mrows X ++ [x]) (mcols X)) (Y ++ [y]) t r ->
    BOTrace (S n) X Y (EvModel X Y (Ok (next, di)) :: EvTarget x (Ok y) :: t) r.

Lemma clock_run w : clock w = (fst (time_ w), [], Ok (snd (time_ w))).
Proof. unfold WrapperModel.clock, ext. destruct (time_ w). reflexivity. Qed.

Lemma bind_clock {B} (k : N -> Mo B) w : bind clock k w = k (snd (time_ w)) (fst (time_ w)).
Proof. unfold bind. rewrite clock_run. destruct (k _ _) as [[? ?] ?]. reflexivity. Qed.

Lemma bind_lift {A B} (r : res A) (k : A -> Mo B) w :
  bind (lift r) k w = match r with Ok a => k a w | Raise e => (w, [], Raise e) end.
Proof. unfold bind, lift. destruct r; [destruct (k a w) as [[? ?] ?]|]; reflexivity. Qed.

Lemma bind_ev {A B} (ev : res A -> event N) f (k : A -> Mo B) w :
  bind (ext_ev ev f) k w =
  match f w with
  | (w1, Ok a) => let '(w2, t, r) := k a w1 in (w2, ev (Ok a) :: t, r)
  | (w1, Raise e) => (w1, [ev (Raise e)], Raise e)
  end.
Proof.
  unfold bind, ext_ev. destruct (f w) as [w1 [a|e]]; [|reflexivity].
  destruct (k a w1) as [[? ?] ?]. reflexivity.
Qed.

Lemma bind_assoc {A B C} (m : Mo A) (k : A -> Mo B) (h : B -> Mo C) w :
  bind (bind m k) h w = bind m (fun a => bind (k a) h) w.
Proof.
  unfold bind. destruct (m w) as [[w1 t1] [a|e]]; [|reflexivity].
  destruct (k a w1) as [[w2 t2] [b|e]]; [|reflexivity].
  destruct (h b w2) as [[w3 t3] r]. now rewrite app_assoc.
Qed.

Lemma bind_ret_l {A B} (a : A) (k : A -> Mo B) w : bind (ret a) k w = k a w.
Proof. unfold bind, ret. destruct (k a w) as [[? ?] ?]. reflexivity. Qed.

Lemma bind_ret_r {A} (m : Mo A) w : bind m ret w = m w.
Proof. unfold bind, ret. destruct (m w) as [[? t] [?|?]]; rewrite ?app_nil_r; reflexivity. Qed.

Lemma bind_ext {A B} (m m' : Mo A) (k k' : A -> Mo B) w :
  (forall w, m w = m' w) -> (forall a w, k a w = k' a w) -> bind m k w = bind m' k' w.
Proof.
  intros H1 H2. unfold bind. rewrite H1. destruct (m' w) as [[? ?] [a|?]]; [|reflexivity]. rewrite H2. reflexivity.
Qed.

Definition XY (r : run_out N) := (ro_X r, ro_Y r).

Section Class.
Context (single_iteration : mat N -> list N -> W -> W * res (list N * info N)).
Notation class_step := (class_step N W fun_target time_ single_iteration).
Notation class_loop := (class_loop N W fun_target time_ single_iteration).
Notation class_all_initial := (class_all_initial N W fun_target time_ single_iteration).

Theorem class_loop_trace n : forall X Y ta ts tq w w' t r,
  class_loop n X Y ta ts tq w = (w', t, r) ->
  BOTrace n X Y t (rmap XY r) /\
  forall o, r = Ok o -> exists la ls lq, ro_tall o = ta ++ la /\ ro_tsur o = ts ++ ls /\ ro_tacq o = tq ++ lq /\
     List.length la = n /\ List.length ls = n /\ List.length lq = n.
Proof.
  induction n as [|n IH]; intros X Y ta ts tq w w' t r; cbn [WrapperModel.class_loop].
  - intros H. unfold ret in H. inversion H; subst. split; [constructor|].
    intros o Ho. inversion Ho; subst. exists [], [], []. cbn. rewrite !app_nil_r. auto 10.
  - unfold WrapperModel.class_step. rewrite bind_assoc, bind_clock, bind_assoc, bind_ev.
    destruct (single_iteration X Y (fst (time_ w))) as [w1 [[next di]|e]].
    2:{ intros H. inversion H; subst. split; [constructor|discriminate]. }
    rewrite bind_assoc, bind_lift.
    destruct (get_next_best_sample N next X (in_points di) (in_acqs di)) as [nb|e] eqn:E1.
    2:{ intros H. inversion H; subst. split; [|discriminate]. cbn [rmap]. constructor. rewrite E1. reflexivity. }
    rewrite bind_assoc, bind_lift.
    destruct (vstack_row N X nb) as [[X' p]|e] eqn:E2.
    2:{ intros H. inversion H; subst. split; [|discriminate]. cbn [rmap]. constructor. rewrite E1. exact E2. }
    assert (P : picked X next di p /\ X' = mkmat (mrows X ++ [p]) (mcols X)).
    { unfold vstack_row in E2. destruct nb as [q|]; [|destruct (Nat.eqb (mcols X) 1); discriminate].
      destruct (Nat.eqb_spec (List.length q) (mcols X)); [|discriminate]. inversion E2; subst.
      split; [|reflexivity]. split; assumption. }
    destruct P as [P ->].
    rewrite bind_assoc, bind_clock, bind_assoc. unfold WrapperModel.call_target. rewrite bind_ev.
    destruct (fun_target p (fst (time_ w1))) as [w2 [y|e]].
    2:{ intros H. inversion H; subst. split; [|discriminate]. cbn [rmap]. now constructor. }
    rewrite bind_assoc, bind_clock, bind_assoc, bind_clock, bind_ret_l.
    match goal with |- context [class_loop n ?a ?b ?c ?d ?e ?w] =>
      destruct (class_loop n a b c d e w) as [[w3 t3] r3] eqn:E3 end.
    intros H. inversion H; subst. apply IH in E3. destruct E3 as [B T]. split.
    + now constructor.
    + intros o Ho. destruct (T o Ho) as (la & ls & lq & A1 & A2 & A3 & L1 & L2 & L3).
      rewrite <- !app_assoc in *. do 3 eexists. split; [exact A1|]. split; [exact A2|]. split; [exact A3|].
      cbn. lia.
Qed.

Lemma class_all_trace num_iter X Y w w' t r :
  class_all_initial num_iter X Y w = (w', t, r) ->
  (nrows X = List.length Y /\ BOTrace (Z.to_nat num_iter) X Y t (rmap XY r) /\
   forall o, r = Ok o -> List.length (ro_tall o) = Z.to_nat num_iter /\ List.length (ro_tsur o) = Z.to_nat num_iter /\
       List.length (ro_tacq o) = Z.to_nat num_iter) \/
  (nrows X <> List.length Y /\ t = [] /\ r = Raise AssertionError).
Proof.
  unfold WrapperModel.class_all_initial. rewrite bind_lift.
  destruct (Nat.eqb_spec (nrows X) (List.length Y)) as [E|E]; cbn [assert_].
  2:{ intros H. inversion H; subst. right. auto. }
  rewrite bind_clock. intros H. left. split; [exact E|].
  destruct (class_loop (Z.to_nat num_iter) X Y [] [] [] (fst (time_ w))) as [[w1 t1] [o|e]] eqn:L.
  - unfold bind at 1 in H. rewrite L in H. rewrite bind_clock in H. unfold ret in H. inversion H; subst.
    rewrite app_nil_r. apply class_loop_trace in L. destruct L as [B T]. split; [exact B|].
    intros o' Ho. inversion Ho; subst. destruct (T _ eq_refl) as (la & ls & lq & -> & -> & -> & L1 & L2 & L3). cbn. auto.
  - unfold bind at 1 in H. rewrite L in H. inversion H; subst. apply class_loop_trace in L. destruct L as [B T].
    split; [exact B|discriminate].
Qed.
End Class.

(** ** consequences of BOTrace *)
Lemma calls_of_app a b : calls_of N (a ++ b) = calls_of N a ++ calls_of N b.
Proof. unfold calls_of. now rewrite flat_map_app. Qed.

Lemma trace_rows n : forall X Y t X' Y', BOTrace n X Y t (Ok (X', Y')) ->
  exists news, List.length news = n /\ mrows X' = mrows X ++ map fst news /\ Y' = Y ++ map snd news /\
    mcols X' = mcols X /\ calls_of N t = evaluated N news /\
    Forall (fun p => List.length (fst p) = mcols X) news.
Proof.
  induction n; intros X Y t X' Y' H; inversion H; subst.
  - exists []. cbn. rewrite !app_nil_r. auto 10.
  - match goal with H : BOTrace n _ _ _ _ |- _ => apply IHn in H; destruct H as (news & L & R & RY & C & CA & F) end.
    exists ((x, y) :: news). cbn [mrows mcols map fst snd List.length] in *.
    rewrite <- !app_assoc in *. cbn [app] in *. repeat split; auto.
    + cbn. unfold evaluated in CA. now rewrite <- CA.
    + constructor; [|exact F]. match goal with H : picked _ _ _ _ |- _ => destruct H as [_ H]; exact H end.
Qed.

Lemma trace_fail n : forall X Y t e, BOTrace n X Y t (Raise e) ->
  exists t0 tl, t = t0 ++ tl /\ Forall (ev_ok N) t0 /\ (tl = [] \/ exists ev, tl = [ev] /\ ev_fails N ev e).
Proof.
  induction n; intros X Y t e H; inversion H; subst.
  - exists []. eexists. split; [reflexivity|]. split; [constructor|]. right. eexists. split; reflexivity.
  - exists [EvModel X Y (Ok (next, di))], []. split; [reflexivity|]. split; [repeat constructor|now left].
  - exists [EvModel X Y (Ok (next, di))]. eexists. split; [reflexivity|]. split; [repeat constructor|]. right. eexists. split; reflexivity.
  - match goal with H : BOTrace n _ _ _ _ |- _ => apply IHn in H; destruct H as (t0' & tl & -> & F & T) end.
    exists (EvModel X Y (Ok (next, di)) :: EvTarget x (Ok y) :: t0'), tl. split; [reflexivity|].
    split; [repeat constructor; exact F|exact T].
Qed.

Lemma trace_ok n : forall X Y t o, BOTrace n X Y t (Ok o) -> Forall (ev_ok N) t.
Proof.
  induction n; intros X Y t o H; inversion H; subst; repeat constructor. eapply IHn; eassumption.
Qed.

Lemma split_cons {A} (a : A) t t1 b t2 : a :: t = t1 ++ b :: t2 ->
  (t1 = [] /\ b = a /\ t2 = t) \/ exists t1', t1 = a :: t1' /\ t = t1' ++ b :: t2.
Proof. destruct t1; cbn; intros H; inversion H; subst; [left|right]; eauto. Qed.

(** the data given to the surrogate is what was evaluated before, and the next target call is a good query *)
Lemma trace_data n : forall X Y t r, BOTrace n X Y t r ->
  forall t1 Xm Ym rm t2, t = t1 ++ EvModel Xm Ym rm :: t2 ->
  exists news, calls_of N t1 = evaluated N news /\ mrows Xm = mrows X ++ map fst news /\ Ym = Y ++ map snd news /\ mcols Xm = mcols X.
Proof.
  induction n; intros X Y t r H t1 Xm Ym rm t2; inversion H; subst; intros E;
    try (destruct t1; discriminate).
  - apply split_cons in E. destruct E as [(-> & E & _)|(t1' & -> & E)]; [|destruct t1'; discriminate].
    inversion E; subst. exists []. cbn. rewrite !app_nil_r. auto.
  - apply split_cons in E. destruct E as [(-> & E & _)|(t1' & -> & E)]; [|destruct t1'; discriminate].
    inversion E; subst. exists []. cbn. rewrite !app_nil_r. auto.
  - apply split_cons in E. destruct E as [(-> & E & _)|(t1' & -> & E)].
    + inversion E; subst. exists []. cbn. rewrite !app_nil_r. auto.
    + apply split_cons in E. destruct E as [(_ & E & _)|(t1'' & _ & E)]; [discriminate|destruct t1''; discriminate].
  - apply split_cons in E. destruct E as [(-> & E & _)|(t1' & -> & E)].
    + inversion E; subst. exists []. cbn. rewrite !app_nil_r. auto.
    + apply split_cons in E. destruct E as [(_ & E & _)|(t1'' & -> & E)]; [discriminate|].
      match goal with H : BOTrace n _ _ _ _ |- _ => specialize (IHn _ _ _ _ H _ _ _ _ _ E) end.
      destruct IHn as (news & C & R & RY & M). exists ((x, y) :: news).
      cbn [mrows mcols map fst snd] in *. rewrite <- !app_assoc in *. repeat split; auto.
      cbn. unfold evaluated in C. now rewrite <- C.
Qed.

Lemma trace_queries (O : NumOrd N) n : forall X Y t r, BOTrace n X Y t r ->
  forall t1 x rt t2, t = t1 ++ EvTarget x rt :: t2 ->
  exists t1' Xm Ym next di, t1 = t1' ++ [EvModel Xm Ym (Ok (next, di))] /\
    good_query N (mrows Xm) next (mrows (in_points di)) x.
Proof.
  induction n; intros X Y t r H t1 x0 rt t2; inversion H; subst; intros E;
    try (destruct t1; discriminate).
  - apply split_cons in E. destruct E as [(-> & E & _)|(t1' & -> & E)]; [discriminate|destruct t1'; discriminate].
  - apply split_cons in E. destruct E as [(-> & E & _)|(t1' & -> & E)]; [discriminate|destruct t1'; discriminate].
  - apply split_cons in E. destruct E as [(-> & E & _)|(t1' & -> & E)]; [discriminate|].
    apply split_cons in E. destruct E as [(-> & E & _)|(t1'' & _ & E)]; [|destruct t1''; discriminate].
    inversion E; subst. exists [], X, Y, next, di. split; [reflexivity|]. now apply picked_good.
  - apply split_cons in E. destruct E as [(-> & E & _)|(t1' & -> & E)]; [discriminate|].
    apply split_cons in E. destruct E as [(-> & E & _)|(t1'' & -> & E)].
    + inversion E; subst. exists [], X, Y, next, di. split; [reflexivity|]. now apply picked_good.
    + match goal with H : BOTrace n _ _ _ _ |- _ => specialize (IHn _ _ _ _ H _ _ _ _ E) end.
      destruct IHn as (t3 & Xm & Ym & next' & di' & -> & G).
      exists (EvModel X Y (Ok (next, di)) :: EvTarget x (Ok y) :: t3), Xm, Ym, next', di'. split; [reflexivity|exact G].
Qed.

(** in bounds *)
Definition proposal_inside (bounds : list (N * N)) (r : list N * info N) : Prop :=
  inside N bounds (fst r) /\ Forall (inside N bounds) (mrows (in_points (snd r))).

Lemma good_query_inside bounds rows next cands x :
  good_query N rows next cands x -> Forall (inside N bounds) rows -> inside N bounds next -> Forall (inside N bounds) cands ->
  inside N bounds x.
Proof.
  intros G R Hn Hc. destruct G as [(-> & _)|[(_ & H & _)|(_ & _ & (pre & ->))]].
  - exact Hn.
  - rewrite Forall_forall in Hc. now apply Hc.
  - apply Forall_app in R. destruct R as [_ R]. now inversion R.
Qed.

Lemma trace_inside (O : NumOrd N) bounds n : forall X Y t r, BOTrace n X Y t r ->
  (forall Xm Ym p, In (EvModel Xm Ym (Ok p)) t -> proposal_inside bounds p) ->
  Forall (inside N bounds) (mrows X) ->
  (forall x rt, In (EvTarget x rt) t -> inside N bounds x) /\
  (forall X' Y', r = Ok (X', Y') -> Forall (inside N bounds) (mrows X')).
Proof.
  induction n; intros X Y t r H P R; inversion H; subst.
  - split; [intros ? ? []|]. intros ? ? E. inversion E; subst. exact R.
  - split; [|discriminate]. intros ? ? [E|[]]; discriminate.
  - split; [|discriminate]. intros ? ? [E|[]]; discriminate.
  - split; [|discriminate]. intros ? ? [E|[E|[]]]; [discriminate|]. inversion E; subst.
    destruct (P X Y (next, di)) as [P1 P2]; [now left|]. exact (good_query_inside bounds _ _ _ _ (picked_good O _ _ _ _ ltac:(eassumption)) R P1 P2).
  - destruct (P X Y (next, di)) as [P1 P2]; [now left|].
    assert (Ix : inside N bounds x). { exact (good_query_inside bounds _ _ _ _ (picked_good O _ _ _ _ ltac:(eassumption)) R P1 P2). }
    match goal with H : BOTrace n _ _ _ _ |- _ => specialize (IHn _ _ _ _ H) end.
    destruct IHn as [A B].
    + intros Xm Ym p Hp. eapply P. right. right. exact Hp.
    + cbn. apply Forall_app. split; [exact R|]. now constructor.
    + split; [|exact B]. intros x' rt [E|[E|E]]; [discriminate|inversion E; subst; exact Ix|eapply A; exact E].
Qed.

(** EvModel events come from the oracle *)
Definition model_can (single_iteration : mat N -> list N -> W -> W * res (list N * info N)) (ev : event N) : Prop :=
  match ev with EvModel X Y r => exists w w', single_iteration X Y w = (w', r) | EvTarget x r => exists w w', fun_target x w = (w', r) end.

Section Class2.
Context (single_iteration : mat N -> list N -> W -> W * res (list N * info N)).
Context (get_initials : string -> Z -> option Z -> W -> W * res (mat N)).
Notation class_loop := (class_loop N W fun_target time_ single_iteration).
Notation class_all_initial := (class_all_initial N W fun_target time_ single_iteration).
Notation class_initial_inputs := (class_initial_inputs N W fun_target time_ single_iteration).
Notation class_optimize := (class_optimize N W fun_target time_ single_iteration get_initials).
Notation class_initial := (class_initial N W fun_target time_).

(** closure of trace predicates under bind *)
Definition all_ev {A} (P : event N -> Prop) (m : Mo A) : Prop := forall w w' t r, m w = (w', t, r) -> Forall P t.
Lemma all_bind {A B} P (m : Mo A) (k : A -> Mo B) : all_ev P m -> (forall a, all_ev P (k a)) -> all_ev P (bind m k).
Proof.
  intros Hm Hk w w' t r. unfold bind. destruct (m w) as [[w1 t1] [a|e]] eqn:E.
  - destruct (k a w1) as [[w2 t2] r2] eqn:E2. intros H. inversion H; subst. apply Forall_app. split; [eapply Hm|eapply Hk]; eauto.
  - intros H. inversion H; subst. eapply Hm; eauto.
Qed.
Lemma all_ret {A} P (a : A) : all_ev P (ret a). Proof. intros w w' t r H. inversion H; subst. constructor. Qed.
Lemma all_lift {A} P (a : res A) : all_ev P (lift a). Proof. intros w w' t r H. inversion H; subst. constructor. Qed.
Lemma all_ext {A} P (f : W -> W * res A) : all_ev P (ext f).
Proof. intros w w' t r H. unfold ext in H. destruct (f w). inversion H; subst. constructor. Qed.
Lemma all_clock P : all_ev P clock. Proof. apply all_ext. Qed.
Lemma all_mmapM {A B} P (f : A -> Mo B) l : (forall a, all_ev P (f a)) -> all_ev P (mmapM f l).
Proof.
  intros H. induction l; cbn; [apply all_ret|]. apply all_bind; [apply H|]. intros. apply all_bind; [exact IHl|]. intros. apply all_ret.
Qed.
Lemma all_target x : all_ev (model_can single_iteration) (call_target x).
Proof.
  intros w w' t r H. apply ext_ev_inv in H. destruct H as [H ->]. repeat constructor. exists w, w'. exact H.
Qed.
Lemma all_model X Y : all_ev (model_can single_iteration) (ext_ev (EvModel X Y) (single_iteration X Y)).
Proof.
  intros w w' t r H. apply ext_ev_inv in H. destruct H as [H ->]. repeat constructor. exists w, w'. exact H.
Qed.

Lemma all_class_loop n : forall X Y ta ts tq, all_ev (model_can single_iteration) (class_loop n X Y ta ts tq).
Proof.
  induction n; intros X Y ta ts tq; cbn [WrapperModel.class_loop]; [apply all_ret|].
  apply all_bind; [|intros [[[[? ?] ?] ?] ?]; apply IHn].
  unfold class_step. apply all_bind; [apply all_clock|intros ?].
  apply all_bind; [apply all_model|intros [next di]].
  apply all_bind; [apply all_lift|intros nb]. apply all_bind; [apply all_lift|intros [X' p]].
  apply all_bind; [apply all_clock|intros ?]. apply all_bind; [apply all_target|intros y].
  apply all_bind; [apply all_clock|intros ?]. apply all_bind; [apply all_clock|intros ?]. apply all_ret.
Qed.

Lemma all_class_all num_iter X Y : all_ev (model_can single_iteration) (class_all_initial num_iter X Y).
Proof.
  unfold WrapperModel.class_all_initial. apply all_bind; [apply all_lift|intros ?]. apply all_bind; [apply all_clock|intros ?].
  apply all_bind; [apply all_class_loop|intros ?]. apply all_bind; [apply all_clock|intros ?]. apply all_ret.
Qed.

(** initial evaluations *)
Lemma initial_trace xs : forall w w' t r, mmapM class_initial xs w = (w', t, r) ->
  match r with
  | Ok l => map fst (combine xs l) = xs /\ List.length l = List.length xs /\
            t = map (fun p => EvTarget (fst p) (Ok (fst (snd p)))) (combine xs l)
  | Raise e => exists l x rest, xs = map fst l ++ x :: rest /\
            t = map (fun p => EvTarget (fst p) (Ok (snd p))) l ++ [EvTarget x (Raise e)]
  end.
Proof.
  induction xs as [|x xs IH]; intros w w' t r; cbn [mmapM].
  - intros H. inversion H; subst. auto.
  - unfold WrapperModel.class_initial at 1. rewrite bind_assoc, bind_clock, bind_assoc. unfold WrapperModel.call_target at 1. rewrite bind_ev.
    destruct (fun_target x (fst (time_ w))) as [w1 [y|e]].
    2:{ intros H. inversion H; subst. exists [], x, xs. auto. }
    rewrite bind_assoc, bind_clock, bind_ret_l.
    destruct (mmapM class_initial xs (fst (time_ w1))) as [[w2 t2] r2] eqn:E. unfold bind at 1. rewrite E.
    apply IH in E. destruct r2 as [l|e].
    + cbn. intros H. inversion H; subst. destruct E as (E1 & E2 & E3). rewrite app_nil_r, E3. cbn.
      split; [now rewrite E1|]. split; [lia|]. reflexivity.
    + cbn. intros H. inversion H; subst. destruct E as (l & x' & rest & -> & ->).
      exists ((x, y) :: l), x', rest. cbn. auto.
Qed.

(** a whole run from initial inputs: initial evaluations followed by rounds *)
Lemma initial_inputs_trace num_iter X w w' t r :
  class_initial_inputs num_iter X w = (w', t, r) ->
  (exists l x rest e, mrows X = map fst l ++ x :: rest /\ r = Raise e /\
     t = map (fun p => EvTarget (fst p) (Ok (snd p))) l ++ [EvTarget x (Raise e)]) \/
  exists (l : list (list N * N)) t2, map fst l = mrows X /\
     t = map (fun p => EvTarget (fst p) (Ok (snd p))) l ++ t2 /\
     BOTrace (Z.to_nat num_iter) X (map snd l) t2 (rmap XY r) /\
     forall o, r = Ok o -> List.length (ro_tall o) = (nrows X + Z.to_nat num_iter)%nat /\
       List.length (ro_tsur o) = Z.to_nat num_iter /\ List.length (ro_tacq o) = Z.to_nat num_iter.
Proof.
  unfold WrapperModel.class_initial_inputs. unfold bind at 1.
  destruct (mmapM class_initial (mrows X) w) as [[w1 t1] [l|e]] eqn:E; apply initial_trace in E.
  2:{ intros H. inversion H; subst. left. destruct E as (l & x & rest & E1 & E2). exists l, x, rest, e. auto. }
  destruct E as (E1 & E2 & E3). intros H. right.
  exists (map (fun p => (fst p, fst (snd p))) (combine (mrows X) l)).
  assert (S2 : map fst l = map snd (map (fun p => (fst p, fst (snd p))) (combine (mrows X) l))).
  { rewrite map_map. cbn. clear E1 E3 H. revert E2. generalize (mrows X). induction l as [|a l IHl]; intros xs E2; destruct xs; cbn in *; try discriminate; [reflexivity|].
    f_equal. apply IHl. lia. }
  rewrite <- S2. unfold bind at 1 in H.
  destruct (class_all_initial num_iter X (map fst l) w1) as [[w2 t2] r2] eqn:E4.
  assert (LX : nrows X = List.length (map fst l)) by (rewrite map_length; unfold nrows; lia).
  apply class_all_trace in E4. destruct E4 as [(_ & B & T)|(NE & _)]; [|contradiction].
  destruct r2 as [o|e].
  - cbn in H. inversion H; subst. exists t2. rewrite app_nil_r. split; [rewrite map_map; cbn; exact E1|].
    split; [rewrite map_map; reflexivity|]. split; [exact B|]. intros o' Ho. inversion Ho; subst. cbn.
    destruct (T o eq_refl) as (T1 & T2 & T3). rewrite app_length, map_length. unfold nrows. rewrite T1, T2, T3. lia.
  - inversion H; subst. exists t2. split; [rewrite map_map; cbn; exact E1|].
    split; [rewrite map_map; reflexivity|]. split; [exact B|]. discriminate.
Qed.

Lemma calls_initial l : calls_of N (map (fun p => EvTarget (fst p) (Ok (snd p))) l) = evaluated N l.
Proof. induction l; cbn; [reflexivity|]. unfold evaluated in *. now rewrite <- IHl. Qed.

Lemma class_optimize_inv meth num_iter num_init seed w w' t r :
  class_optimize meth num_iter num_init seed w = (w', t, r) ->
  ((exists e, r = Raise e) /\ t = []) \/
  exists w1 w2 X w3, (0 < num_init)%Z /\ get_initials meth num_init seed w1 = (w2, Ok X) /\
     class_initial_inputs num_iter X w2 = (w3, t, r).
Proof.
  unfold WrapperModel.class_optimize. rewrite bind_lift.
  destruct (Z.ltb_spec 0 num_init); cbn [assert_].
  2:{ intros E. inversion E; subst. left. eauto. }
  rewrite bind_clock. unfold bind at 1, ext at 1.
  destruct (get_initials meth num_init seed (fst (time_ w))) as [w2 [X|e]] eqn:G.
  2:{ intros E. inversion E; subst. left. eauto. }
  unfold bind at 1. destruct (class_initial_inputs num_iter X w2) as [[w3 t3] [o|e]] eqn:C.
  - rewrite bind_clock. cbn. intros E. inversion E; subst. right. exists (fst (time_ w)), w2, X, w3. rewrite app_nil_r. auto.
  - cbn. intros E. inversion E; subst. right. exists (fst (time_ w)), w2, X, w'. auto.
Qed.
End Class2.

(** ** class and function wrappers *)
Lemma fun_loop_eq mo samp nsamp mlm n : forall X Y ta ts tq w,
  fun_loop N W fun_target time_ mo samp nsamp mlm n X Y ta ts tq w =
  class_loop N W fun_target time_ (mo samp nsamp mlm) n X Y ta ts tq w.
Proof.
  induction n as [|n IH]; intros; [reflexivity|]. cbn [fun_loop WrapperModel.class_loop].
  unfold class_step, get_next_best_sample. rewrite bind_assoc. apply bind_ext; [reflexivity|]. intros t0 w0.
  rewrite bind_assoc. apply bind_ext; [reflexivity|]. intros [next di] w1.
  rewrite bind_assoc. apply bind_ext; [reflexivity|]. intros nb w2.
  rewrite bind_assoc. apply bind_ext; [reflexivity|]. intros [X' p] w3.
  rewrite bind_assoc. apply bind_ext; [reflexivity|]. intros te0 w4.
  rewrite bind_assoc. apply bind_ext; [reflexivity|]. intros y w5.
  rewrite bind_assoc. apply bind_ext; [reflexivity|]. intros te1 w6.
  rewrite bind_assoc. apply bind_ext; [reflexivity|]. intros t1 w7.
  rewrite bind_ret_l. apply IH.
Qed.

Theorem wrappers_agree mo gi meth samp nsamp mlm num_init num_iter seed w :
  str_in meth ALLOWED_INITIALIZING_METHOD_BO = true -> str_in mlm ALLOWED_MLM_METHOD = true -> (0 < num_init)%Z ->
  run_single_round N W fun_target time_ mo gi meth samp nsamp mlm num_init num_iter seed w =
  class_optimize N W fun_target time_ (mo samp nsamp mlm) gi meth num_iter num_init seed w.
Proof.
  intros H1 H2 H3. unfold run_single_round, class_optimize. rewrite H1, H2. cbn [assert_]. rewrite !bind_lift.
  destruct (Z.ltb_spec 0 num_init); [|lia]. cbn [assert_].
  apply bind_ext; [reflexivity|]. intros t0 w0. apply bind_ext; [reflexivity|]. intros X w1.
  apply bind_ext; [|reflexivity]. intros w2.
  unfold fun_initial_inputs, class_initial_inputs. rewrite H2. cbn [assert_]. rewrite bind_lift.
  apply bind_ext; [reflexivity|]. intros l w3. apply bind_ext; [|reflexivity]. intros w4.
  unfold fun_all_initial, class_all_initial. rewrite H2. cbn [assert_]. rewrite !bind_lift.
  destruct (assert_ (Nat.eqb (nrows X) (List.length (map fst l)))); [|reflexivity]. rewrite ?bind_lift.
  apply bind_ext; [reflexivity|]. intros ts w5. apply bind_ext; [|reflexivity]. intros. apply fun_loop_eq.
Qed.
End Proofs.

(** ** Statements about whole runs *)
Section Whole.
Context (N : Num) (W : Type).
Context (fun_target : list N -> W -> W * res N) (time_ : W -> W * N).
Context (single_iteration : mat N -> list N -> W -> W * res (list N * info N)).
Context (get_initials : string -> Z -> option Z -> W -> W * res (mat N)).
Notation class_all_initial := (class_all_initial N W fun_target time_ single_iteration).
Notation class_initial_inputs := (class_initial_inputs N W fun_target time_ single_iteration).
Notation class_optimize := (class_optimize N W fun_target time_ single_iteration get_initials).

Lemma all_initial_grows num_iter X Y w w' t o :
  class_all_initial num_iter X Y w = (w', t, Ok o) ->
  exists news, List.length news = Z.to_nat num_iter /\
    mrows (ro_X o) = mrows X ++ map fst news /\ ro_Y o = Y ++ map snd news /\ mcols (ro_X o) = mcols X /\
    Forall (fun p => List.length (fst p) = mcols X) news /\
    calls_of N t = evaluated N news /\
    List.length (ro_tall o) = Z.to_nat num_iter /\ List.length (ro_tsur o) = Z.to_nat num_iter /\
    List.length (ro_tacq o) = Z.to_nat num_iter.
Proof.
  intros H. apply class_all_trace in H. destruct H as [(_ & B & L)|(_ & _ & E)]; [|discriminate].
  cbn in B. apply trace_rows in B. destruct B as (news & B1 & B2 & B3 & B4 & B5 & B6). destruct (L o eq_refl) as (L1 & L2 & L3).
  exists news. cbn [XY ro_X ro_Y fst snd] in *. repeat (split; [assumption|]). assumption.
Qed.

Lemma initial_inputs_calls num_iter X w w' t o :
  class_initial_inputs num_iter X w = (w', t, Ok o) ->
  exists ps, mrows (ro_X o) = map fst ps /\ ro_Y o = map snd ps /\ calls_of N t = evaluated N ps /\
    List.length ps = (nrows X + Z.to_nat num_iter)%nat /\ firstn (nrows X) (mrows (ro_X o)) = mrows X /\
    List.length (ro_tall o) = (nrows X + Z.to_nat num_iter)%nat /\
    List.length (ro_tsur o) = Z.to_nat num_iter /\ List.length (ro_tacq o) = Z.to_nat num_iter.
Proof.
  intros H. apply initial_inputs_trace in H. destruct H as [(l & x & rest & e & _ & E & _)|(l & t2 & HX & -> & B & L)]; [discriminate|].
  destruct (L o eq_refl) as (L1 & L2 & L3). cbn in B. apply trace_rows in B. destruct B as (news & B1 & B2 & B3 & B4 & B5 & B6).
  exists (l ++ news). cbn [XY] in *. rewrite B2, B3, !map_app, <- HX, calls_of_app, calls_initial, B5. unfold evaluated. rewrite map_app.
  assert (NR : nrows X = List.length l) by (unfold nrows; rewrite <- HX, map_length; reflexivity).
  split; [reflexivity|]. split; [reflexivity|]. split; [reflexivity|]. split; [rewrite app_length; lia|]. split; [|auto].
  rewrite NR. rewrite <- (map_length fst l). rewrite firstn_app, firstn_all, Nat.sub_diag. cbn. now rewrite app_nil_r.
Qed.

Notation propagates := (propagates N).

Lemma trace_propagates n X Y t r : BOTrace N n X Y t r -> propagates t r.
Proof. destruct r; cbn; intros H; [eapply trace_ok; eauto|eapply trace_fail; eauto]. Qed.

Lemma initial_ok (l : list (list N * N)) : Forall (ev_ok N) (map (fun p => EvTarget (fst p) (Ok (snd p))) l).
Proof. induction l; cbn; constructor; auto. cbn. exact I. Qed.

Lemma propagates_app t0 t {A} (r : res A) : Forall (ev_ok N) t0 -> propagates t r -> propagates (t0 ++ t) r.
Proof.
  intros F. destruct r; cbn; intros H; [apply Forall_app; auto|].
  destruct H as (t1 & tl & -> & F1 & T). exists (t0 ++ t1), tl. rewrite app_assoc. split; [reflexivity|]. split; [apply Forall_app; auto|exact T].
Qed.

Lemma initial_inputs_propagates num_iter X w w' t r : class_initial_inputs num_iter X w = (w', t, r) -> propagates t r.
Proof.
  intros H. apply initial_inputs_trace in H. destruct H as [(l & x & rest & e & _ & -> & ->)|(l & t2 & HX & -> & B & L)].
  - exists (map (fun p => EvTarget (fst p) (Ok (snd p))) l), [EvTarget x (Raise e)]. split; [reflexivity|]. split; [apply initial_ok|].
    right. eexists. split; [reflexivity|reflexivity].
  - apply propagates_app; [apply initial_ok|]. apply trace_propagates in B. destruct r; exact B.
Qed.

Lemma optimize_propagates meth num_iter num_init seed w w' t r :
  class_optimize meth num_iter num_init seed w = (w', t, r) -> propagates t r.
Proof.
  intros H. apply class_optimize_inv in H. destruct H as [((e & ->) & ->)|(w1 & w2 & X & w3 & _ & _ & H)].
  - exists [], []. auto.
  - eapply initial_inputs_propagates; eauto.
Qed.

Lemma propagates_event t {A} (r : res A) ev e : propagates t r -> In ev t -> ev_fails N ev e ->
  r = Raise e /\ exists t0, t = t0 ++ [ev] /\ Forall (ev_ok N) t0.
Proof.
  intros P I F. assert (NO : ~ ev_ok N ev) by (destruct ev as [? ? [?|?]|? [?|?]]; cbn in *; auto; contradiction).
  destruct r as [a|e']; cbn in P.
  - rewrite Forall_forall in P. exfalso. apply NO, P, I.
  - destruct P as (t0 & tl & -> & F0 & T). apply in_app_or in I. destruct I as [I|I].
    + rewrite Forall_forall in F0. exfalso. apply NO, F0, I.
    + destruct T as [->|(ev' & -> & F')]; [destruct I|]. destruct I as [<-|[]].
      split; [|eauto]. destruct ev' as [? ? [?|?]|? [?|?]]; cbn in *; subst; congruence || contradiction.
Qed.

(** the surrogate is always given exactly the evaluations made so far *)
Lemma split_app_ev {A} (a : list A) b t1 x t2 : a ++ b = t1 ++ x :: t2 -> 
  (exists a2, a = t1 ++ x :: a2) \/ exists t1', t1 = a ++ t1' /\ b = t1' ++ x :: t2.
Proof.
  revert t1. induction a as [|y a IH]; intros t1 H; cbn in *; [right; eauto|].
  destruct t1 as [|z t1]; cbn in H.
  { left. exists a. cbn. congruence. }
  injection H as <- H.
  apply IH in H. destruct H as [(a2 & ->)|(t1' & -> & ->)]; [left; exists a2; reflexivity|right; exists t1'; split; reflexivity].
Qed.

Lemma initial_inputs_data num_iter X w w' t r : class_initial_inputs num_iter X w = (w', t, r) ->
  forall t1 Xm Ym rm t2, t = t1 ++ EvModel Xm Ym rm :: t2 ->
  exists ps, calls_of N t1 = evaluated N ps /\ mrows Xm = map fst ps /\ Ym = map snd ps.
Proof.
  intros H. apply initial_inputs_trace in H. intros t1 Xm Ym rm t2 E.
  assert (NI : forall (l : list (list N * N)) a2, map (fun p => EvTarget (fst p) (Ok (snd p))) l = t1 ++ EvModel Xm Ym rm :: a2 -> False).
  { intros l a2 Hl. assert (I : In (EvModel Xm Ym rm) (map (fun p : list N * N => EvTarget (fst p) (Ok (snd p))) l)) by (rewrite Hl; apply in_or_app; right; left; reflexivity).
    apply in_map_iff in I. destruct I as (p & I & _). discriminate. }
  destruct H as [(l & x & rest & e & _ & -> & ->)|(l & t3 & HX & -> & B & L)].
  - apply split_app_ev in E. destruct E as [(a2 & E)|(t1' & -> & E)]; [exfalso; eapply NI; eauto|].
    destruct t1' as [|? [|]]; discriminate.
  - apply split_app_ev in E. destruct E as [(a2 & E)|(t1' & -> & E)]; [exfalso; eapply NI; eauto|].
    eapply trace_data in B; [|exact E]. destruct B as (news & B1 & B2 & B3 & B4).
    exists (l ++ news). rewrite calls_of_app, calls_initial, B1, B2, B3, !map_app, HX. unfold evaluated. rewrite map_app. auto.
Qed.

(** queries of a run after the initial evaluations *)
Lemma all_initial_queries (O : NumOrd N) num_iter X Y w w' t r : class_all_initial num_iter X Y w = (w', t, r) ->
  forall t1 x rt t2, t = t1 ++ EvTarget x rt :: t2 ->
  exists news next di t1', t1 = t1' ++ [EvModel (mkmat (mrows X ++ map fst news) (mcols X)) (Y ++ map snd news) (Ok (next, di))] /\
    calls_of N t1 = evaluated N news /\
    good_query N (mrows X ++ map fst news) next (mrows (in_points di)) x.
Proof.
  intros H t1 x rt t2 E. apply class_all_trace in H. destruct H as [(_ & B & _)|(_ & -> & _)]; [|destruct t1; discriminate].
  pose proof B as B0. eapply (trace_queries N O) in B; [|exact E]. destruct B as (t1' & Xm & Ym & next & di & -> & G).
  rewrite <- app_assoc in E. cbn in E. eapply trace_data in B0; [|exact E]. destruct B0 as (news & B1 & B2 & B3 & B4).
  destruct Xm as [rows cols]. cbn in B2, B4. subst. exists news, next, di, t1'.
  split; [reflexivity|]. split; [|exact G]. rewrite calls_of_app, B1. cbn. now rewrite app_nil_r.
Qed.
End Whole.
