(** Proofs about one iteration and about whole runs of Thompson sampling. *)
From Verif Require Import Base Num Monad UtilsModel HypsModel CovModel GPModel HypOptModel WrapperModel BOModel
  ThompsonModel ThompsonSpec ThompsonProofs.
From Coq Require Import List ZArith Bool String Lia Arith.
Set Implicit Arguments.

Lemma rbind_inv {A B} (m : res A) (f : A -> res B) b : rbind m f = Ok b -> exists a, m = Ok a /\ f a = Ok b.
Proof. destruct m; [eauto|discriminate]. Qed.
Ltac rinv := repeat match goal with
  | H : rbind _ _ = Ok _ |- _ =>
      let a := fresh "a" in let H1 := fresh "H" in apply rbind_inv in H; destruct H as (a & H1 & H) end.

Section Run.
Context (N : Num) (W G : Type).
Context (mvn : list N -> list (list N) -> W -> W * res G) (rvs : G -> W -> W * res (list N)) (lae : bool).
Context (nexp nlog : N -> N) (npi : N).
Context (inv chol : list (list N) -> res (list (list N))) (cho_solve : list (list N) -> list (list N) -> res (list (list N)))
  (slogdet : list (list N) -> N * N) (minimize : minimizer N) (da ca : bool).
Context (get_samples get_initials : list (N * N) -> string -> Z -> option Z -> W -> W * res (list (list N))).
Context (fun_target : list N -> W -> W * res N).
Notation iteration := (ts_iteration mvn rvs lae nexp nlog npi inv chol cho_solve slogdet minimize da ca get_samples).
Notation loop := (ts_loop mvn rvs lae nexp nlog npi inv chol cho_solve slogdet minimize da ca get_samples fun_target).
Notation run := (thompson_sampling_gp mvn rvs lae nexp nlog npi inv chol cho_solve slogdet minimize da ca get_samples get_initials fun_target).

Lemma predict_length X Y Xs name opt fx mu sd S :
  predict_with_optimized_hyps nexp nlog npi inv chol cho_solve slogdet minimize X Y Xs name opt None fx = Ok (mu, sd, S) ->
  List.length mu = alen Xs.
Proof.
  intros H. unfold predict_with_optimized_hyps in H. rinv.
  match goal with H : (let '(_, _) := ?k in _) = _ |- _ => destruct k as [[C B] h] end.
  unfold predict_with_cov in H. rinv.
  match goal with K : posterior _ _ _ _ _ _ _ _ _ = Ok ?q |- _ => destruct q as [[nY m] S0] end.
  assert (mu = m) as -> by congruence.
  match goal with K : posterior _ _ _ _ _ _ _ _ _ = _ |- _ => unfold posterior in K end. rinv.
  match goal with K : get_prior_mu None Xs = _ |- _ => cbn [get_prior_mu] in K; injection K as <- end.
  cbn [mcols Nat.eqb negb] in *.
  match goal with K : (if ?b then _ else _) = Ok (nY, m, S0) |- _ => destruct b; [|discriminate K] end.
  match goal with K : Ok (_, _, _) = Ok (nY, m, S0) |- _ => injection K as _ <- _ end.
  cbn [mrows]. unfold madd. rewrite map2_length; unfold mdot, zeros, mgen; now rewrite !map_length, !seq_length.
Qed.

Lemma np_array_rows_ok {A} (l : list (list A)) m : np_array_rows l = Ok m -> mrows m = l.
Proof.
  unfold np_array_rows. destruct l as [|x l]; [intros H; now injection H as <-|].
  destruct (forallb _ _); [|discriminate]. intros H. now injection H as <-.
Qed.
Lemma points_ok (ev : list (list N) -> tsev N) (f : W -> W * res (list (list N))) w w1 t p :
  points ev f w = (w1, t, Ok p) -> f w = (w1, Ok p) /\ t = [ev p].
Proof. unfold points. destruct (f w) as [w' r]. intros H. injection H as <- <- ->. auto. Qed.

(** whatever is drawn, the first candidate is returned; with a single candidate nothing is returned *)
Lemma iteration_first range X Y norm method num w w1 t p : iteration range X Y norm method num w = (w1, t, Ok p) ->
  exists pts v w0, t = [TsCands pts; TsDraw v] /\ hd_error pts = Some p /\ 2 <= List.length pts /\
    (draw_contract mvn rvs -> List.length v = List.length pts) /\ get_samples range method num None w = (w0, Ok pts).
Proof.
  intros H. unfold ts_iteration in H. minv. subst.
  match goal with K : points _ _ _ = _ |- _ => apply points_ok in K as (K1 & ->) end.
  match goal with K : match ?p with [] => _ | _ => _ end = Ok ?x |- _ => rename p into pts, x into Xt, K into EX end.
  destruct pts as [|p0 pts]; [discriminate EX|]. apply np_array_rows_ok in EX.
  match goal with K : predict_with_optimized_hyps _ _ _ _ _ _ _ _ _ _ _ _ _ _ _ = Ok ?q |- _ => destruct q as [[mu sd] Sg]; apply predict_length in K; rename K into L end.
  minv. subst.
  match goal with K : sample_ladder _ _ _ _ _ _ _ _ = _ |- _ => apply ladder_ok in K as (v & -> & -> & D) end.
  rewrite map_length, L in *. cbn [alen] in *. unfold nrows in *. rewrite EX in *.
  match goal with K : rbind _ _ = Ok _ |- _ => apply rbind_inv in K as (c & Ec & Ei) end.
  unfold np_stack in Ec. destruct (Nat.eqb_spec (List.length (p0 :: pts)) 1) as [Q|Q]; [discriminate Ec|].
  cbn [first_column mrows mapM] in Ec. destruct (nth_error v 0) as [v0|]; [|discriminate Ec]. cbn in Ec. injection Ec as <-.
  cbn in Ei. injection Ei as <-.
  match goal with K : match nth_error _ _ with _ => _ end = Ok p |- _ => cbn in K; injection K as <- end.
  exists (p0 :: pts), v. eexists. cbn [app]. split; [reflexivity|]. split; [reflexivity|]. split; [cbn in *; lia|].
  split; [exact D|exact K1].
Qed.

Lemma calls_app (a b : list (tsev N)) : ts_calls (a ++ b) = (ts_calls a ++ ts_calls b)%list.
Proof. apply flat_map_app. Qed.
Lemma cands_app (a b : list (tsev N)) : cands_of (a ++ b) = (cands_of a ++ cands_of b)%list.
Proof. apply flat_map_app. Qed.
Lemma inits_app (a b : list (tsev N)) : inits_of (a ++ b) = (inits_of a ++ inits_of b)%list.
Proof. apply flat_map_app. Qed.
Lemma drawn_app (a b : list (tsev N)) : drawn (a ++ b) = (drawn a ++ drawn b)%list.
Proof. apply flat_map_app. Qed.

Lemma target_ok x w w1 t y : ts_target N fun_target x w = (w1, t, Ok y) -> t = [TsTarget x (Ok y)].
Proof. unfold ts_target. intros H. now apply ext_ev_inv in H as (_ & ->). Qed.

Definition first_of (c : list (list (list N))) (later : list (list N)) : Prop :=
  Forall2 (fun pts x => hd_error pts = Some x /\ 2 <= List.length pts) c later.

Lemma loop_ok range norm method num n : forall X Y w w1 t X' Y', loop range norm method num n X Y w = (w1, t, Ok (X', Y')) ->
  exists later ys, mrows X' = (mrows X ++ later)%list /\ mcols X' = mcols X /\ Y' = (Y ++ ys)%list /\
    List.length later = n /\ List.length ys = n /\ Forall (fun r => List.length r = mcols X) later /\
    ts_calls t = map (fun p => (fst p, Ok (snd p))) (combine later ys) /\ inits_of t = [] /\ first_of (cands_of t) later /\
    Forall (fun pts => exists w2 w3, get_samples range method num None w2 = (w3, Ok pts)) (cands_of t).
Proof.
  induction n as [|n IH]; intros X Y w w1 t X' Y' H; cbn [ts_loop] in H.
  - minv. subst. injection H as <- <-. exists [], []. rewrite !app_nil_r. repeat (split; [solve [auto|constructor]|]). constructor.
  - minv. subst.
    match goal with K : iteration _ _ _ _ _ _ _ = _ |- _ => apply iteration_first in K as (pts & v & ww & -> & E1 & E2 & _ & E3) end.
    match goal with K : vstack_row _ _ _ = Ok ?q |- _ => destruct q as [X1 p1]; cbn [vstack_row] in K;
      destruct (Nat.eqb_spec (List.length a) (mcols X)) as [Q|Q]; [|discriminate K]; injection K as <- <- end.
    minv. subst.
    match goal with K : ts_target _ _ _ _ = _ |- _ => apply target_ok in K as -> end.
    match goal with K : loop _ _ _ _ _ _ _ _ = _ |- _ => apply IH in K as (later & ys & A1 & A2 & A3 & A4 & A5 & A6 & A7 & A8 & A9 & A10) end.
    cbn [mrows mcols] in *. exists (a :: later), (a0 :: ys). rewrite <- app_assoc in A1. rewrite <- app_assoc in A3.
    split; [exact A1|]. split; [exact A2|]. split; [exact A3|]. split; [cbn; now rewrite A4|]. split; [cbn; now rewrite A5|].
    split; [constructor; auto|].
    rewrite !calls_app, !inits_app, !cands_app, A7, A8. cbn. split; [reflexivity|]. split; [reflexivity|]. split.
    + constructor; [auto|exact A9].
    + constructor; [eauto|exact A10].
Qed.

Lemma targets_ok rows : forall w w1 t ys, mmapM (ts_target N fun_target) rows w = (w1, t, Ok ys) ->
  List.length ys = List.length rows /\ ts_calls t = map (fun p => (fst p, Ok (snd p))) (combine rows ys) /\
  inits_of t = [] /\ cands_of t = [].
Proof.
  induction rows as [|x rows IH]; intros w w1 t ys H; cbn [mmapM] in H; minv; subst.
  - auto.
  - match goal with K : ts_target _ _ _ _ = _ |- _ => apply target_ok in K as -> end.
    match goal with K : mmapM _ _ _ = _ |- _ => apply IH in K as (A1 & A2 & A3 & A4) end.
    rewrite app_nil_r, calls_app, inits_app, cands_app, A2, A3, A4. cbn. rewrite A1. auto.
Qed.

Lemma combine_app {A B} (a a' : list A) (b b' : list B) : List.length a = List.length b ->
  combine (a ++ a') (b ++ b') = (combine a b ++ combine a' b')%list.
Proof. revert b. induction a as [|x a IH]; intros [|y b] L; try discriminate L; cbn; [reflexivity|]. f_equal. apply IH. now injection L. Qed.

Lemma run_ok range num_init num_iter norm method num w w1 t X Y :
  run range num_init num_iter norm method num w = (w1, t, Ok (X, Y)) ->
  exists init later w0, get_initials range method num_init None w = (w0, Ok init) /\
    mrows X = (init ++ later)%list /\ List.length later = Z.to_nat num_iter /\ List.length Y = nrows X /\
    ts_calls t = map (fun p => (fst p, Ok (snd p))) (combine (mrows X) Y) /\ inits_of t = [init] /\ first_of (cands_of t) later /\
    Forall (fun pts => exists w2 w3, get_samples range method num None w2 = (w3, Ok pts)) (cands_of t).
Proof.
  intros H. unfold thompson_sampling_gp in H. minv. subst.
  match goal with K : points _ _ _ = _ |- _ => apply points_ok in K as (K1 & ->) end.
  match goal with K : np_array_rows _ = _ |- _ => apply np_array_rows_ok in K; rename K into ER end.
  match goal with K : mmapM _ _ _ = _ |- _ => apply targets_ok in K as (A1 & A2 & A3 & A4) end.
  match goal with K : loop _ _ _ _ _ _ _ _ = _ |- _ => apply loop_ok in K as (later & ys & B1 & B2 & B3 & B4 & B5 & B6 & B7 & B8 & B9 & B10) end.
  rewrite ER in *. exists a0, later. eexists. split; [exact K1|]. split; [exact B1|]. split; [exact B4|].
  split; [unfold nrows; rewrite B1, B3, !app_length; lia|].
  rewrite !calls_app, !inits_app, !cands_app, A2, A3, A4, B7, B8, B1, B3. cbn. rewrite combine_app, map_app by auto.
  split; [reflexivity|]. split; [reflexivity|]. auto.
Qed.

(** *** failures *)
Definition trace {A} (x : W * list (tsev N) * res A) : list (tsev N) := snd (fst x).
Definition silent {A} (m : M W (tsev N) A) : Prop := forall w, ts_calls (trace (m w)) = [].
Lemma silent_lift {A} (r : res A) : silent (lift r). Proof. intros w. reflexivity. Qed.
Lemma silent_ret {A} (a : A) : silent (ret a). Proof. intros w. reflexivity. Qed.
Lemma silent_ext {A} (f : W -> W * res A) : silent (ext f). Proof. intros w. unfold ext. now destruct (f w). Qed.
Lemma silent_bind {A B} (m : M W (tsev N) A) (k : A -> M W (tsev N) B) : silent m -> (forall a, silent (k a)) -> silent (bind m k).
Proof.
  intros Hm Hk w. specialize (Hm w). unfold bind. destruct (m w) as [[w1 t1] [a|e]]; [|exact Hm].
  specialize (Hk a w1). destruct (k a w1) as [[w2 t2] r]. unfold trace in *. cbn [fst snd] in *. now rewrite calls_app, Hm, Hk.
Qed.
Lemma silent_points ev (f : W -> W * res (list (list N))) : (forall p, ts_calls [ev p] = []) -> silent (points ev f).
Proof. intros H w. unfold points. destruct (f w) as [w' [p|e]]; cbn; [apply H|reflexivity]. Qed.
Lemma silent_mapM {A B} (f : A -> M W (tsev N) B) l : (forall a, silent (f a)) -> silent (mmapM f l).
Proof. intros H. induction l as [|x l IH]; cbn; [apply silent_ret|]. apply silent_bind; [apply H|]. intros y. apply silent_bind; [exact IH|]. intros ys. apply silent_ret. Qed.
Lemma silent_sample mu Sg num : silent (sample_functions N mvn rvs mu Sg num).
Proof.
  unfold sample_functions. apply silent_bind; [apply silent_lift|]. intros _. apply silent_bind; [apply silent_ext|]. intros rv.
  apply silent_bind; [|intros l; apply silent_ret]. apply silent_mapM. intros _ w. unfold draw. now destruct (rvs rv w) as [w' [v|e]].
Qed.
Lemma silent_ladder mu Sg js : silent (sample_ladder N mvn rvs lae mu Sg js).
Proof.
  induction js as [|j js IH]; intros w; cbn [sample_ladder]; [reflexivity|].
  pose proof (silent_sample mu (madd N Sg (mmap N (nmul N j) (eye N (List.length Sg) (List.length Sg)))) 1 w) as H.
  destruct (sample_functions _ _ _ _ _ _ _) as [[w1 t1] [a|e]]; [exact H|]. destruct (caught lae e); [|exact H].
  specialize (IH w1). destruct (sample_ladder _ _ _ _ _ _ _ w1) as [[w2 t2] x]. unfold trace in *. cbn [fst snd] in *. now rewrite calls_app, H, IH.
Qed.
Lemma silent_iteration range X Y norm method num : silent (iteration range X Y norm method num).
Proof.
  unfold ts_iteration.
  repeat first [apply silent_bind; [first [apply silent_lift|apply silent_points; reflexivity|apply silent_ladder]|intros]
               |apply silent_lift|match goal with |- silent (let '(_, _) := ?p in _) => destruct p as [[? ?] ?] end].
Qed.

Lemma until_silent (t : list (tsev N)) e : ts_calls t = [] -> calls_until t e.
Proof. intros H. exists [], []. rewrite H. auto. Qed.
Lemma until_app (t1 t2 : list (tsev N)) l e : ts_calls t1 = ts_evaluated l -> calls_until t2 e -> calls_until (t1 ++ t2) e.
Proof. intros H (l2 & tl & E & T). exists (l ++ l2)%list, tl. rewrite calls_app, H, E. unfold ts_evaluated. rewrite map_app, app_assoc. auto. Qed.
Lemma silent_at {A} (m : M W (tsev N) A) w w1 t r : silent m -> m w = (w1, t, r) -> ts_calls t = [].
Proof. intros S E. specialize (S w). now rewrite E in S. Qed.
Lemma target_raise x w w1 t e : ts_target N fun_target x w = (w1, t, Raise e) -> calls_until t e.
Proof. intros H. apply ext_ev_inv in H as (_ & ->). exists [], [(x, Raise e)]. split; [reflexivity|]. eauto. Qed.

Lemma loop_raise range norm method num n : forall X Y w w1 t e, loop range norm method num n X Y w = (w1, t, Raise e) -> calls_until t e.
Proof.
  induction n as [|n IH]; intros X Y w w1 t e H; cbn [ts_loop] in H; [now apply ret_raise in H|].
  apply bind_raise in H as [H|(w2 & t1 & p & t2 & H1 & H & ->)]; [apply until_silent, (silent_at _ (@silent_iteration _ _ _ _ _ _) H)|].
  apply until_app with (l := []); [apply (silent_at _ (@silent_iteration _ _ _ _ _ _) H1)|].
  apply bind_raise in H as [H|(w3 & t3 & q & t4 & H2 & H & ->)]; [apply until_silent, (silent_at _ (silent_lift _) H)|].
  apply until_app with (l := []); [apply (silent_at _ (silent_lift _) H2)|]. destruct q as [X' p'].
  apply bind_raise in H as [H|(w4 & t5 & y & t6 & H3 & H & ->)]; [now apply target_raise in H|].
  apply target_ok in H3 as ->. apply until_app with (l := [(p, y)]); [reflexivity|]. now apply IH in H.
Qed.
Lemma targets_raise rows : forall w w1 t e, mmapM (ts_target N fun_target) rows w = (w1, t, Raise e) -> calls_until t e.
Proof.
  induction rows as [|x rows IH]; intros w w1 t e H; cbn [mmapM] in H; [now apply ret_raise in H|].
  apply bind_raise in H as [H|(w2 & t1 & y & t2 & H1 & H & ->)]; [now apply target_raise in H|].
  apply target_ok in H1 as ->. apply until_app with (l := [(x, y)]); [reflexivity|].
  apply bind_raise in H as [H|(w3 & t3 & ys & t4 & H2 & H & ->)]; [now apply IH in H|now apply ret_raise in H].
Qed.
Lemma run_raise range num_init num_iter norm method num w w1 t e :
  run range num_init num_iter norm method num w = (w1, t, Raise e) -> calls_until t e.
Proof.
  intros H. unfold thompson_sampling_gp in H.
  apply bind_raise in H as [H|(w2 & t1 & u & t2 & H1 & H & ->)]; [apply until_silent, (silent_at _ (silent_lift _) H)|].
  apply until_app with (l := []); [apply (silent_at _ (silent_lift _) H1)|].
  assert (SP : silent (points TsInit (get_initials range method num_init None))) by (apply silent_points; reflexivity).
  apply bind_raise in H as [H|(w3 & t3 & rows & t4 & H2 & H & ->)]; [apply until_silent, (silent_at _ SP H)|].
  apply until_app with (l := []); [apply (silent_at _ SP H2)|].
  apply bind_raise in H as [H|(w4 & t5 & X & t6 & H3 & H & ->)]; [apply until_silent, (silent_at _ (silent_lift _) H)|].
  apply until_app with (l := []); [apply (silent_at _ (silent_lift _) H3)|].
  apply bind_raise in H as [H|(w5 & t7 & Y & t8 & H4 & H & ->)]; [now apply targets_raise in H|].
  apply targets_ok in H4 as (_ & A & _). eapply until_app; [exact A|]. now apply loop_raise in H.
Qed.
End Run.
