(** Runs that are stopped and resumed; objects that are used again. *)
From Verif Require Import Base Lists Num Monad UtilsModel HypsModel CovModel GPModel HypOptModel TreesModel WrapperModel WrapperSpec WrapperProofs
  BOModel BOAcqModel BOFullModel BOProgram BOObject ResumeSpec RelProofs.
From Coq Require Import List ZArith Bool String Lia Arith.
Import ListNotations.
Set Implicit Arguments.
Unset Strict Implicit.
Local Open Scope string_scope.

Lemma bind_assoc {W E A B C} (m : M W E A) (k : A -> M W E B) (l : B -> M W E C) w : bind (bind m k) l w = bind m (fun a => bind (k a) l) w.
Proof.
  unfold bind. destruct (m w) as [[w1 t1] [a|e]]; [|reflexivity]. destruct (k a w1) as [[w2 t2] [b|e]]; [|reflexivity].
  destruct (l b w2) as [[w3 t3] r]. now rewrite app_assoc.
Qed.
Lemma bind_ext {W E A B} (m : M W E A) (k k' : A -> M W E B) w : (forall a v, k a v = k' a v) -> bind m k w = bind m k' w.
Proof. intros H. unfold bind. destruct (m w) as [[w1 t1] [a|e]]; [|reflexivity]. now rewrite H. Qed.
Lemma calls_app N t u : calls_of N (t ++ u)%list = (calls_of N t ++ calls_of N u)%list.
Proof. unfold calls_of. apply flat_map_app. Qed.

Section Loop.
Context (N : Num) (W : Type) (target : list N -> W -> W * res N) (time : W -> W * N) (si : mat N -> list N -> W -> W * res (list N * info N)).
Notation loop := (class_loop N W target time si).
Lemma loop_app n m : forall X Y ta ts tq w, loop (n + m) X Y ta ts tq w = bind (loop n X Y ta ts tq) (fun r => loop m (ro_X r) (ro_Y r) (ro_tall r) (ro_tsur r) (ro_tacq r)) w.
Proof.
  induction n as [|n IH]; intros X Y ta ts tq w; cbn [Nat.add class_loop].
  { unfold bind, ret. cbn [ro_X ro_Y ro_tall ro_tsur ro_tacq]. destruct (loop m X Y ta ts tq w) as [[w' t] r]. reflexivity. }
  rewrite bind_assoc. apply bind_ext. intros [[[[X' Y'] a] s] c] v. apply IH.
Qed.
Definition prefixed (ta ts tq : list N) (r : run_out N) : run_out N := mkrun (ro_X r) (ro_Y r) (ta ++ ro_tall r)%list (ts ++ ro_tsur r)%list (tq ++ ro_tacq r)%list.
Lemma loop_acc n : forall X Y ta ts tq w, loop n X Y ta ts tq w = match loop n X Y [] [] [] w with (w', t, r) => (w', t, rmap (prefixed ta ts tq) r) end.
Proof.
  induction n as [|n IH]; intros X Y ta ts tq w; cbn [class_loop].
  { unfold ret, prefixed. cbn. now rewrite !app_nil_r. }
  unfold bind. destruct (class_step N W target time si X Y w) as [[w1 t1] [q|e]]; [|reflexivity]. destruct q as [[[[X' Y'] a] s] c].
  rewrite (IH X' Y' (ta ++ [a])%list). cbn [app]. rewrite (IH X' Y' [a]). destruct (loop n X' Y' [] [] [] w1) as [[w2 t2] [r|e]]; [|reflexivity].
  unfold prefixed. cbn. now rewrite <- !app_assoc.
Qed.
Lemma step_rows X Y w w' t q : class_step N W target time si X Y w = (w', t, Ok q) -> nrows X = List.length Y ->
  nrows (fst (fst (fst (fst q)))) = List.length (snd (fst (fst (fst q)))).
Proof.
  unfold class_step. intros H L. apply bind_ok in H as (? & ? & ? & ? & _ & H & _). apply bind_ok in H as (? & ? & [p di] & ? & _ & H & _).
  apply bind_ok in H as (? & ? & nb & ? & _ & H & _). apply bind_ok in H as (? & ? & [X' p'] & ? & HV & H & _). apply lift_ok in HV as (HV & _).
  apply bind_ok in H as (? & ? & ? & ? & _ & H & _). apply bind_ok in H as (? & ? & y & ? & _ & H & _).
  apply bind_ok in H as (? & ? & ? & ? & _ & H & _). apply bind_ok in H as (? & ? & ? & ? & _ & H & _). apply ret_ok in H as (<- & _). cbn [fst snd].
  unfold vstack_row in HV. destruct nb as [p1|]; [|destruct (Nat.eqb _ _); discriminate]. destruct (Nat.eqb _ _); [|discriminate]. injection HV as <- <-.
  unfold nrows in *. cbn [mrows]. rewrite !app_length. cbn. now rewrite L.
Qed.
Lemma loop_rows n : forall X Y ta ts tq w w' t r, loop n X Y ta ts tq w = (w', t, Ok r) -> nrows X = List.length Y -> nrows (ro_X r) = List.length (ro_Y r).
Proof.
  induction n as [|n IH]; intros X Y ta ts tq w w' t r H L; cbn [class_loop] in H. { apply ret_ok in H as (<- & _). exact L. }
  apply bind_ok in H as (w1 & t1 & q & t2 & H1 & H2 & _). destruct q as [[[[X' Y'] a] s] c]. apply (IH _ _ _ _ _ _ _ _ _ H2). exact (step_rows H1 L).
Qed.
End Loop.

Section Resume.
Context (N : Num) (W : Type) (RW : W -> W -> Prop).
Context (target : list N -> W -> W * res N) (time : W -> W * N) (si : mat N -> list N -> W -> W * res (list N * info N)).
Context (gi : string -> Z -> option Z -> W -> W * res (mat N)).
Hypotheses (Hsym : forall v w, RW v w -> RW w v) (Htrans : forall u v w, RW u v -> RW v w -> RW u w).
(** [RW] need not be reflexive everywhere *)
Hypothesis Htime : forall w, RW w w -> RW w (fst (time w)).
Notation any := (fun _ _ : N => True).
Hypothesis HTG : forall x w1 w2, RW w1 w2 -> RW (fst (target x w1)) (fst (target x w2)) /\ snd (target x w1) = snd (target x w2).
Hypothesis HSI : forall X Y w1 w2, RW w1 w2 -> RW (fst (si X Y w1)) (fst (si X Y w2)) /\ rres (pair_rel (info_rel any)) (snd (si X Y w1)) (snd (si X Y w2)).
Hypothesis HGI : forall m n s w1 w2, RW w1 w2 -> RW (fst (gi m n s w1)) (fst (gi m n s w2)) /\ snd (gi m n s w1) = snd (gi m n s w2).
Lemma left_refl v w : RW v w -> RW v v. Proof. intros H. apply Htrans with w; [exact H|now apply Hsym]. Qed.
Lemma tick_right v w : RW v w -> RW v (fst (time w)).
Proof. intros H. apply Htrans with w; [exact H|]. apply Htime. apply (left_refl (Hsym H)). Qed.
Lemma tick_left v w : RW v w -> RW (fst (time v)) w. Proof. intros H. now apply Hsym, tick_right, Hsym. Qed.
Lemma untick v w : RW v v -> RW (fst (time v)) w -> RW v w. Proof. intros H K. apply Htrans with (fst (time v)); [now apply Htime|exact K]. Qed.
Lemma HTI w1 w2 : RW w1 w2 -> RW (fst (time w1)) (fst (time w2)) /\ any (snd (time w1)) (snd (time w2)).
Proof. intros H. split; [|exact I]. now apply tick_left, tick_right. Qed.
Lemma HRT (a b c d : N) : any a b -> any c d -> any (nsub N a c) (nsub N b d). Proof. auto. Qed.
Lemma rel_calls t u : Forall2 (event_rel (N := N) any) t u -> calls_of N t = calls_of N u.
Proof.
  induction 1 as [|e f t u H F IH]; [reflexivity|]. unfold calls_of in *. cbn [flat_map]. rewrite IH. f_equal.
  destruct e, f; cbn in H; try contradiction; [reflexivity|]. destruct H as (-> & ->). reflexivity.
Qed.
Lemma rel_history r s : rres (run_rel (N := N) any) r s -> same_history r s.
Proof. destruct r, s; cbn; auto. intros (H1 & H2 & _). auto. Qed.

Notation all k := (class_all_initial N W target time si (Z.of_nat k)).
Notation resumes := (resumes RW).
Lemma clock_run w : clock N W time w = (fst (time w), [], Ok (snd (time w))).
Proof. unfold clock, ext. destruct (time w). reflexivity. Qed.
(** shape of a run given all initial information *)
Lemma all_shape k X Y w : class_all_initial N W target time si k X Y w =
  if Nat.eqb (nrows X) (List.length Y) then
    match class_loop N W target time si (Z.to_nat k) X Y [] [] [] (fst (time w)) with
    | (w', t, Ok r) => (fst (time w'), t, Ok r)
    | (w', t, Raise e) => (w', t, Raise e)
    end
  else (w, [], Raise AssertionError).
Proof.
  unfold class_all_initial. destruct (Nat.eqb _ _); [|reflexivity]. unfold bind at 1. unfold lift, assert_. unfold bind at 1. rewrite clock_run. cbn [app]. unfold bind at 1.
  destruct (class_loop N W target time si (Z.to_nat k) X Y [] [] [] (fst (time w))) as [[w' t] [r|e]]; [|reflexivity].
  unfold bind. rewrite clock_run. unfold ret. cbn [app]. now rewrite app_nil_r.
Qed.

Lemma resume_all n m X Y w w' : RW w w' ->
  resumes (all n X Y w) (fun X Y => all m X Y) (all (n + m) X Y w').
Proof.
  intros HW. rewrite !all_shape. destruct (Nat.eqb (nrows X) (List.length Y)) eqn:EL; [|cbn; auto]. rewrite !Nat2Z.id. apply Nat.eqb_eq in EL.
  rewrite loop_app. unfold bind at 1.
  pose proof (@class_loop_rel N W W RW any HRT target target time time si si HTG (fun _ _ => HTI (w1 := _) (w2 := _)) HSI n X Y [] [] [] [] [] [] (Forall2_nil _) (Forall2_nil _) (Forall2_nil _) _ _ (proj1 (HTI HW))) as L1.
  destruct (class_loop N W target time si n X Y [] [] [] (fst (time w))) as [[wb t1] r1] eqn:E1.
  destruct (class_loop N W target time si n X Y [] [] [] (fst (time w'))) as [[wb' t1'] r1'] eqn:E1'.
  destruct L1 as (HB & HT1 & HR1). destruct r1 as [r1|e], r1' as [r1'|e']; cbn in HR1; try contradiction.
  2:{ subst e'. cbn. split; [exact HB|]. split; [now apply rel_calls|reflexivity]. }
  destruct HR1 as (RX & RY & _). rewrite <- RX, <- RY. rewrite loop_acc.
  assert (A : forall v, RW (fst (time wb)) v -> RW (fst (time v)) wb').
  { intros v HV. apply tick_left. apply (untick (left_refl HB)) in HV. apply Htrans with wb; [now apply Hsym|exact HB]. }
  assert (L2 : forall v, RW (fst (time wb)) v -> match class_loop N W target time si m (ro_X r1) (ro_Y r1) [] [] [] (fst (time v)), class_loop N W target time si m (ro_X r1) (ro_Y r1) [] [] [] wb' with
    (w2, t2, r2), (w2', t2', r2') => RW w2 w2' /\ Forall2 (event_rel any) t2 t2' /\ rres (run_rel any) r2 r2' end).
  { intros v HV. exact (@class_loop_rel N W W RW any HRT target target time time si si HTG (fun _ _ => HTI (w1 := _) (w2 := _)) HSI m (ro_X r1) (ro_Y r1) [] [] [] [] [] [] (Forall2_nil _) (Forall2_nil _) (Forall2_nil _) _ _ (A v HV)). }
  destruct (class_loop N W target time si m (ro_X r1) (ro_Y r1) [] [] [] wb') as [[w2' t2'] r2'].
  pose proof (loop_rows E1 EL) as EL1. apply Nat.eqb_eq in EL1.
  destruct r2' as [r2'|e2']; cbn [rmap rbind]; unfold resumes; intros v HV; specialize (L2 v HV); rewrite all_shape, EL1, Nat2Z.id;
    destruct (class_loop N W target time si m (ro_X r1) (ro_Y r1) [] [] [] (fst (time v))) as [[w2 t2] r2]; destruct L2 as (HC & HT2 & HR2); destruct r2 as [r2|e2]; cbn in HR2; try contradiction.
  - split; [exact (proj1 (HTI HC))|]. split; [rewrite !calls_app; f_equal; now apply rel_calls|]. destruct HR2 as (H1 & H2 & _). cbn. auto.
  - split; [exact HC|]. split; [rewrite !calls_app; f_equal; now apply rel_calls|]. exact HR2.
Qed.

Notation inputs k := (class_initial_inputs N W target time si (Z.of_nat k)).
Lemma resume_inputs n m X w w' : RW w w' -> resumes (inputs n X w) (fun X Y => all m X Y) (inputs (n + m) X w').
Proof.
  intros HW. unfold class_initial_inputs. unfold bind at 1. unfold bind at 2.
  pose proof (@initials_rel N W W RW any HRT target target time time HTG (fun _ _ => HTI (w1 := _) (w2 := _)) (mrows X) _ _ HW) as L0.
  destruct (mmapM (class_initial N W target time) (mrows X) w) as [[wa t0] r0], (mmapM (class_initial N W target time) (mrows X) w') as [[wa' t0'] r0'].
  destruct L0 as (HA & HT0 & HR0). destruct r0 as [l|e], r0' as [l'|e']; cbn in HR0; try contradiction.
  2:{ subst. cbn. split; [exact HA|]. split; [now apply rel_calls|reflexivity]. }
  destruct (initial_maps HR0) as (H1 & H2). rewrite <- H1. pose proof (resume_all n m X (map fst l) HA) as Q. unfold bind.
  destruct (all n X (map fst l) wa) as [[w1 t1] r1], (all (n + m) X (map fst l) wa') as [[w3 t3] r3]. apply rel_calls in HT0.
  destruct r1 as [r1|e]; unfold ret; cbn [resumes ro_X ro_Y] in *.
  - destruct r3 as [r3|e3]; cbn [resumes ro_X ro_Y]; intros v HV; specialize (Q v HV); destruct (all m (ro_X r1) (ro_Y r1) v) as [[w2 t2] r2]; destruct Q as (Q1 & Q2 & Q3);
      (split; [exact Q1|]; split; [rewrite !app_nil_r; rewrite !calls_app in *; rewrite <- app_assoc; congruence|]); destruct r2; exact Q3 || (cbn in *; auto).
  - destruct Q as (Q1 & Q2 & ->). split; [exact Q1|]. split; [|reflexivity]. rewrite !calls_app. congruence.
Qed.
Lemma optimize_shape meth k num_init seed w : class_optimize N W target time si gi meth k num_init seed w =
  if (0 <? num_init)%Z then
    match gi meth num_init seed (fst (time w)) with
    | (wb, Ok X) => match class_initial_inputs N W target time si k X wb with (w1, t1, Ok r) => (fst (time w1), t1, Ok r) | (w1, t1, Raise e) => (w1, t1, Raise e) end
    | (wb, Raise e) => (wb, [], Raise e)
    end
  else (w, [], Raise AssertionError).
Proof.
  unfold class_optimize. destruct (0 <? num_init)%Z; [|reflexivity]. unfold bind at 1. unfold lift, assert_. unfold bind at 1. rewrite clock_run. cbn [app]. unfold bind at 1. unfold ext.
  destruct (gi meth num_init seed (fst (time w))) as [wb [X|e]]; [|reflexivity]. unfold bind at 1.
  destruct (class_initial_inputs N W target time si k X wb) as [[w1 t1] [r|e]]; [|reflexivity]. unfold bind. rewrite clock_run. unfold ret. cbn [app]. now rewrite app_nil_r.
Qed.
Lemma resume_optimize meth n m num_init seed w w' : RW w w' ->
  resumes (class_optimize N W target time si gi meth (Z.of_nat n) num_init seed w) (fun X Y => all m X Y)
    (class_optimize N W target time si gi meth (Z.of_nat (n + m)) num_init seed w').
Proof.
  intros HW. rewrite !optimize_shape. destruct (0 <? num_init)%Z; [|cbn; auto]. pose proof (proj1 (HTI HW)) as HA.
  destruct (HGI meth num_init seed HA) as (HB & HE). destruct (gi meth num_init seed (fst (time w))) as [wb r], (gi meth num_init seed (fst (time w'))) as [wb' r'].
  cbn [fst snd] in HB, HE. subst r'. destruct r as [X|e]; [|cbn; auto]. pose proof (resume_inputs n m X HB) as Q.
  pose proof (@class_inputs_rel N W W RW any HRT target target time time si si HTG (fun _ _ => HTI (w1 := _) (w2 := _)) HSI (Z.of_nat n) X wb wb (left_refl HB)) as SELF.
  destruct (inputs n X wb) as [[w1 t1] r1], (inputs (n + m) X wb') as [[w3 t3] r3]. destruct r1 as [r1|e]; cbn [resumes] in Q.
  - assert (Q' : forall v, RW (fst (time w1)) v -> let (p, r2) := all m (ro_X r1) (ro_Y r1) v in let (w2, t2) := p in RW w2 w3 /\ calls_of N (t1 ++ t2) = calls_of N t3 /\ same_history r2 r3).
    { intros v HV. apply Q. apply untick; [|exact HV]. exact (proj1 SELF). }
    destruct r3 as [r3|e3]; cbn [resumes]; [|exact Q']. intros v HV. specialize (Q' v HV). destruct (all m (ro_X r1) (ro_Y r1) v) as [[w2 t2] r2]. destruct Q' as (Q1 & Q2 & Q3).
    split; [|auto]. now apply tick_right.
  - destruct Q as (Q1 & Q2 & ->). cbn. auto.
Qed.
End Resume.
