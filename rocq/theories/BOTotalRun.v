(** Every step of a run returns for valid arguments (exact reals): optimisation of the acquisition function, and the three classes. *)
From Verif Require Import Base Lists Num NumLaws Monad UtilsModel UtilsSpec UtilsProofs HypsModel WrapperModel BOModel BOProofs BOTotalSpec.
From Coq Require Import List ZArith Bool String Reals Lra Lia Arith.
Import ListNotations.
Set Implicit Arguments.
Unset Strict Implicit.
Unset Asymmetric Patterns.
Set Bullet Behavior "Strict Subproofs".
Local Open Scope string_scope.

(** the program returns, and the result and the final world satisfy Q *)
Definition runs {W Ev A} (m : M W Ev A) (w : W) (Q : A -> W -> Prop) : Prop := exists w' t a, m w = (w', t, Ok a) /\ Q a w'.
Lemma runs_bind {W Ev A B} (m : M W Ev A) (k : A -> M W Ev B) w P Q : runs m w P -> (forall a w', P a w' -> runs (k a) w' Q) -> runs (bind m k) w Q.
Proof.
  intros (w1 & t1 & a & E & H) K. destruct (K a w1 H) as (w2 & t2 & b & E2 & H2). exists w2, (t1 ++ t2)%list, b. split; [|exact H2].
  unfold bind. now rewrite E, E2.
Qed.
Lemma runs_ret {W Ev A} (a : A) w (Q : A -> W -> Prop) : Q a w -> runs (Ev := Ev) (ret a) w Q.
Proof. intros H. exists w, [], a. auto. Qed.
Lemma runs_lift {W Ev A} (r : res A) a w (Q : A -> W -> Prop) : r = Ok a -> Q a w -> runs (Ev := Ev) (lift r) w Q.
Proof. intros -> H. exists w, [], a. auto. Qed.
Lemma runs_weaken {W Ev A} (m : M W Ev A) w (P Q : A -> W -> Prop) : runs m w P -> (forall a w', P a w' -> Q a w') -> runs m w Q.
Proof. intros (w' & t & a & E & H) K. exists w', t, a. auto. Qed.
Lemma runs_assert {W Ev B} b (k : M W Ev B) w Q : b = true -> runs k w Q -> runs (massert b; k) w Q.
Proof. intros -> H. apply runs_bind with (P := fun _ w' => w' = w); [apply runs_lift with tt; reflexivity|]. intros _ w' ->. exact H. Qed.

Lemma str_in_of x l : In x l -> str_in x l = true.
Proof. intros H. unfold str_in. apply existsb_exists. exists x. split; [exact H|apply String.eqb_refl]. Qed.
Lemma range_len r x : in_range r x -> List.length x = List.length r.
Proof. intros F. symmetry. exact (Forall2_len F). Qed.
Lemma np_array_ok {A} (l : list (list A)) d : l <> [] -> Forall (fun p => List.length p = d) l -> np_array_rows l = Ok (mkmat l d).
Proof.
  destruct l as [|p l]; [congruence|]. intros _ F. unfold np_array_rows. inversion F; subst. replace (forallb _ _) with true; [reflexivity|].
  symmetry. apply forallb_forall. intros y Hy. apply Nat.eqb_eq. rewrite Forall_forall in F. now apply F.
Qed.
Lemma bounds_ok (r : list (R * R)) (l : list (list R)) : Forall (in_range r) l -> check_points_in_bounds NumR (mkmat l (List.length r)) r = Ok (mkmat l (List.length r)).
Proof.
  intros F. unfold check_points_in_bounds. cbn [mcols mrows]. rewrite Nat.eqb_refl. cbn [assert_ rbind].
  assert (Q : forall p, In p l -> forall b v, In (b, v) (combine r p) -> (fst b <= v <= snd b)%R).
  { rewrite Forall_forall in F. intros p Hp. specialize (F p Hp). clear Hp. induction F as [|b v r p H F IH]; cbn; [tauto|]. intros b' v' [E|I]; [injection E as <- <-; exact H|now apply IH]. }
  assert (A1 : forallb (fun p => forallb (fun bx : R * R * R => nle NumR (fst (fst bx)) (snd bx)) (combine r p)) l = true).
  { apply forallb_forall. intros p Hp. apply forallb_forall. intros [b v] I. apply Flocq.Core.Raux.Rle_bool_true. apply (Q p Hp b v I). }
  assert (A2 : forallb (fun p => forallb (fun bx : R * R * R => nle NumR (snd bx) (snd (fst bx))) (combine r p)) l = true).
  { apply forallb_forall. intros p Hp. apply forallb_forall. intros [b v] I. apply Flocq.Core.Raux.Rle_bool_true. apply (Q p Hp b v I). }
  change (car NumR) with R. rewrite A1. cbn [assert_ rbind]. rewrite A2. reflexivity.
Qed.
Lemma best_total (l : list (list R)) (f : list R -> res R) : l <> [] -> (forall x, In x l -> exists v, f x = Ok v) ->
  exists x, get_best_acquisition_by_evaluation NumR l f = Ok x /\ In x l.
Proof.
  intros NE H. assert (V : exists vs, Forall2 (fun c v => f c = Ok v) l vs).
  { clear NE. induction l as [|x l IH]; [exists []; constructor|]. destruct (H x (or_introl eq_refl)) as [v Hv]. destruct IH as [vs F]; [intros y Hy; apply H; now right|].
    exists (v :: vs). now constructor. }
  destruct V as [vs F]. pose proof (@by_evaluation_raises NumR NumR_ord l f vs F) as RZ.
  destruct (get_best_acquisition_by_evaluation NumR l f) as [x|e] eqn:E.
  - exists x. split; [reflexivity|]. apply (@by_evaluation_ok NumR NumR_ord) in E as (vs' & i & _ & I & _). eapply nth_error_In; eauto.
  - exfalso. unfold get_best_acquisition_by_evaluation in E. pose proof (@eval_loop_total NumR (list NumR) f l None vs F) as T.
    change (@eval_loop NumR) with (@eval_loop NumR) in E, T. revert E T. generalize (@eval_loop NumR (list NumR) f l None). intros z E ->. cbn [rbind] in E.
    destruct (fold_left _ _ _) as [[y v]|]; [discriminate|]. injection E as <-. pose proof (proj1 RZ eq_refl) as Q.
    destruct vs as [|v vs]; [inversion F; subst; congruence|]. specialize (Q v (or_introl eq_refl)). discriminate Q.
Qed.
Lemma normalize_total (Y : list R) : Y <> [] -> exists Yn, normalize_min_max NumR Y = Ok Yn /\ List.length Yn = List.length Y.
Proof.
  destruct Y as [|y Y]; [congruence|]. intros _. unfold normalize_min_max. cbn [npmax npmin rbind].
  destruct (negb _); eexists; (split; [reflexivity|]); rewrite ?map_length; reflexivity.
Qed.

Section Optimise.
Notation N := NumR.
Context (W : Type).
Context (get_samples : string -> Z -> option Z -> W -> W * res (list (list N))).
Context (lbfgsb : (list N -> res N) -> list N -> list (N * N) -> W -> W * res (list N)).
Context (direct : (list N -> res N) -> list (N * N) -> W -> W * res (list N)).
Context (cma : (list N -> res N) -> list N -> list (N * N) -> W -> W * res (list N)).
Context (time_ : W -> W * N).
Context (range : list (R * R)).
Hypothesis (HSR : sound_range range).
Hypotheses (HG : proper_samples range get_samples) (HL : proper_from lbfgsb) (HDI : proper_direct direct) (HCM : proper_from cma).
Notation d := (List.length range).

(** a batch function defined on the points of the right dimension *)
Definition batch_returns (fneg : list (list N) -> res (list N)) : Prop :=
  forall pts, pts <> [] -> Forall (fun p => List.length p = d) pts -> exists l, fneg pts = Ok l /\ List.length l = List.length pts.
Lemma at_point_total fneg : batch_returns fneg -> forall x, List.length x = d -> exists v, at_point N fneg x = Ok v.
Proof.
  intros H x L. destruct (H [x]) as (l & E & LL); [discriminate|repeat constructor; exact L|]. unfold at_point. rewrite E. cbn [rbind].
  destruct l as [|v [|w l]]; try discriminate LL. eauto.
Qed.

(** what optimize proposes *)
Definition proposal_ok (np : list N) (P : mat N) : Prop :=
  in_range range np /\ mrows P <> [] /\ Forall (in_range range) (mrows P) /\ mcols P = d.

Section St.
Context (St : Type).
Lemma runs_tick (s : St) w (Q : N -> St * W -> Prop) : (forall t w', Q t (s, w')) -> runs (tick N W time_ St) (s, w) Q.
Proof.
  intros H. unfold tick, onW, ext. cbn [fst snd]. unfold runs. destruct (time_ w) as [w' t] eqn:E. exists (s, w'), [], t. cbn [fst snd]. rewrite E. auto.
Qed.
Lemma runs_onW {A} (f : W -> W * res A) (s : St) w w' a (Q : A -> St * W -> Prop) : f w = (w', Ok a) -> Q a (s, w') -> runs (onW N W St f) (s, w) Q.
Proof. intros E H. unfold runs, onW, ext. cbn [fst snd]. rewrite E. eauto 6. Qed.

Lemma optimize_acq_total opt_bo fneg samp num seed s w :
  In opt_bo ["L-BFGS-B"; "DIRECT"; "CMA-ES"] -> In samp ["grid"; "sobol"; "halton"; "uniform"; "gaussian"] -> (0 < num)%Z -> batch_returns fneg ->
  runs (optimize_acq N W get_samples lbfgsb direct cma St opt_bo range fneg samp num seed) (s, w)
    (fun r sw => proposal_ok (fst r) (snd r) /\ fst sw = s).
Proof.
  intros HO HSM HN HB. pose proof (at_point_total HB) as AP. unfold optimize_acq.
  apply runs_bind with (P := fun pts sw => pts <> [] /\ Forall (in_range range) pts /\ fst sw = s).
  - destruct HO as [<-|[<-|[<-|[]]]].
    + change ("L-BFGS-B" =? "L-BFGS-B") with true. cbv iota.
      destruct (@HG samp num seed w HSM HN) as (w1 & l & E & NE & FL & LL).
      apply runs_bind with (P := fun l sw => l <> [] /\ Forall (in_range range) l /\ fst sw = s); [apply (runs_onW (s := s) E); auto|].
      clear w w1 l E NE FL LL. intros l [s' w] (NE & FL & ES). cbn in ES. subst s'.
      assert (Q : forall w, runs (mmapM (fun x0 => onW N W St (lbfgsb (at_point N fneg) x0 range)) l) (s, w)
        (fun pts sw => List.length pts = List.length l /\ Forall (in_range range) pts /\ fst sw = s)).
      { clear w NE. induction FL as [|x l Hx FL IH]; intros w; cbn [mmapM]; [now apply runs_ret|].
        destruct (@HL (at_point N fneg) x range w HSR (range_len Hx) AP) as (w1 & y & E & Hy).
        apply runs_bind with (P := fun y sw => in_range range y /\ fst sw = s); [apply (runs_onW (s := s) E); auto|].
        intros y' [s' w'] (Hy' & ES). cbn in ES. subst s'. eapply runs_bind; [apply IH|]. intros ys sw (LY & FY & ES). apply runs_ret. cbn. split; [now f_equal|]. auto. }
      eapply runs_weaken; [apply Q|]. intros pts sw (LP & FP & ES). split; [|auto]. destruct pts; [destruct l; [congruence|discriminate]|discriminate].
    + change ("DIRECT" =? "L-BFGS-B") with false. change ("DIRECT" =? "DIRECT") with true. cbv iota.
      destruct (@HDI (at_point N fneg) range w HSR AP) as (w1 & y & E & Hy).
      apply runs_bind with (P := fun y sw => in_range range y /\ fst sw = s); [apply (runs_onW (s := s) E); auto|].
      intros x sw (Hx & ES). apply runs_ret. split; [discriminate|]. auto.
    + change ("CMA-ES" =? "L-BFGS-B") with false. change ("CMA-ES" =? "DIRECT") with false. change ("CMA-ES" =? "CMA-ES") with true. cbv iota.
      destruct (@HG samp 1%Z seed w HSM eq_refl) as (w1 & l & E & NE & FL & LL).
      apply runs_bind with (P := fun l sw => l <> [] /\ Forall (in_range range) l /\ fst sw = s); [apply (runs_onW (s := s) E); auto|].
      clear w w1 l E NE FL LL. intros l [s' w] (NE & FL & ES). cbn in ES. subst s'. destruct l as [|x0 l]; [congruence|]. inversion FL as [|? ? H0 _]; subst.
      destruct (@HCM (at_point N fneg) x0 range w HSR (range_len H0) AP) as (w1 & y & E & Hy).
      apply runs_bind with (P := fun y sw => in_range range y /\ fst sw = s); [apply (runs_onW (s := s) E); auto|].
      intros x sw (Hx & ES). apply runs_ret. split; [discriminate|]. auto.
  - intros pts sw (NE & FP & ES).
    assert (FL : Forall (fun p => List.length p = d) pts) by (eapply Forall_impl; [|exact FP]; intros p; apply range_len).
    apply runs_bind with (P := fun P sw' => P = mkmat pts d /\ fst sw' = s); [apply runs_lift with (mkmat pts d); [now apply np_array_ok|auto]|].
    intros P sw1 (-> & ES1). cbn [mrows].
    destruct (@best_total pts (at_point N fneg) NE) as (x & E & Hx). { intros x Hx. apply AP. rewrite Forall_forall in FL. now apply FL. }
    apply runs_bind with (P := fun x sw' => In x pts /\ fst sw' = s); [apply runs_lift with x; auto|].
    intros y sw2 (Hy & ES2). apply runs_ret. cbn [fst snd]. split; [|exact ES2]. unfold proposal_ok. cbn [mrows mcols].
    rewrite Forall_forall in FP. split; [now apply FP|]. split; [exact NE|]. split; [now rewrite Forall_forall|reflexivity].
Qed.

(** the end of optimize: bounds, and the values at the candidates *)
Lemma check_point_total np : in_range range np -> check_point N range np = Ok np.
Proof. intros H. unfold check_point. change (@List.length (car NumR) np) with (@List.length R np). rewrite (range_len H). rewrite bounds_ok by (repeat constructor; exact H). reflexivity. Qed.
Lemma candidates_checked np P : proposal_ok np P -> check_points_in_bounds N P range = Ok P.
Proof. intros (_ & _ & F & C). destruct P as [l c]. cbn in F, C. subst c. now apply bounds_ok. Qed.
Lemma candidates_len np P : proposal_ok np P -> Forall (fun p => List.length p = d) (mrows P).
Proof. intros (_ & _ & F & _). eapply Forall_impl; [|exact F]. intros p; apply range_len. Qed.
Lemma neg_scaled_len (a : list N) : List.length (BOModel.neg N (BOModel.scaled N a)) = List.length a.
Proof. unfold BOModel.neg, BOModel.scaled. now rewrite !map_length. Qed.
End St.
End Optimise.
