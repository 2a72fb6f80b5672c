From Verif Require Import Base Lists Num NumLaws UtilsModel UtilsSpec UtilsProofs HypsModel HypsSpec HypsProofs
  Monad WrapperModel WrapperSpec WrapperProofs BOModel BOSpec.
From Coq Require Import List ZArith Bool String Lia Arith.
Local Open Scope string_scope.

Section Proofs.
Context (N : Num) (W K : Type).
Context (get_samples : string -> Z -> option Z -> W -> W * res (list (list N))).
Context (lbfgsb : (list N -> res N) -> list N -> list (N * N) -> W -> W * res (list N)).
Context (direct : (list N -> res N) -> list (N * N) -> W -> W * res (list N)).
Context (cma : (list N -> res N) -> list N -> list (N * N) -> W -> W * res (list N)).
Context (time_ : W -> W * N).

(** ** state-preserving, silent computations *)
Section Pres.
Context {S : Type}.
Notation Ms := (M (S * W) (fitev N)).
Definition pres {A} (m : Ms A) : Prop := forall sw sw' t r, m sw = (sw', t, r) -> fst sw' = fst sw /\ t = [].

Lemma pres_bind {A B} (m : Ms A) (k : A -> Ms B) : pres m -> (forall a, pres (k a)) -> pres (bind m k).
Proof.
  intros Hm Hk sw sw' t r. unfold bind. destruct (m sw) as [[sw1 t1] [a|e]] eqn:E.
  - destruct (k a sw1) as [[sw2 t2] r2] eqn:E2. intros H. inversion H; subst.
    apply Hm in E. apply Hk in E2. destruct E as [E ->], E2 as [E2 ->]. split; [congruence|reflexivity].
  - intros H. inversion H; subst. now apply Hm in E.
Qed.
Lemma pres_ret {A} (a : A) : pres (ret a). Proof. intros ? ? ? ? H. inversion H; subst. auto. Qed.
Lemma pres_raise {A} e : pres (A:=A) (raise e). Proof. intros ? ? ? ? H. inversion H; subst. auto. Qed.
Lemma pres_lift {A} (a : res A) : pres (lift a). Proof. intros ? ? ? ? H. inversion H; subst. auto. Qed.
Lemma pres_onW {A} (f : W -> W * res A) : pres (onW N W S f).
Proof. intros [s w] ? ? ? H. unfold onW, ext in H. cbn in H. destruct (f w). inversion H; subst. auto. Qed.
Lemma pres_tick : pres (tick N W time_ S). Proof. apply pres_onW. Qed.
Lemma pres_getS : pres (getS N W S). Proof. intros ? ? ? ? H. inversion H; subst. auto. Qed.
Lemma pres_mmapM {A B} (f : A -> Ms B) l : (forall a, pres (f a)) -> pres (mmapM f l).
Proof.
  intros H. induction l; cbn; [apply pres_ret|]. apply pres_bind; [apply H|intros].
  apply pres_bind; [exact IHl|intros]. apply pres_ret.
Qed.

Lemma pres_optimize_acq ob rg fneg samp num seed :
  pres (optimize_acq N W get_samples lbfgsb direct cma S ob rg fneg samp num seed).
Proof.
  unfold optimize_acq. apply pres_bind.
  - destruct (ob =? "L-BFGS-B"); [apply pres_bind; [apply pres_onW|intros; apply pres_mmapM; intros; apply pres_onW]|].
    destruct (ob =? "DIRECT"); [apply pres_bind; [apply pres_onW|intros; apply pres_ret]|].
    destruct (ob =? "CMA-ES"); [|apply pres_ret].
    apply pres_bind; [apply pres_onW|]. intros [|x l]; [apply pres_raise|]. apply pres_bind; [apply pres_onW|intros; apply pres_ret].
  - intros pts. apply pres_bind; [apply pres_lift|intros]. apply pres_bind; [apply pres_lift|intros]. apply pres_ret.
Qed.

(** ** what the acquisition optimisation returns *)
Lemma np_array_rows_ok {A} (l : list (list A)) m : np_array_rows l = Ok m -> mrows m = l /\ mat_wf m.
Proof.
  unfold np_array_rows. destruct l as [|x l].
  - intros H. inversion H; subst. split; [reflexivity|]. intros r [].
  - destruct (forallb _ (x :: l)) eqn:F; [|discriminate]. intros H. inversion H; subst. split; [reflexivity|].
    intros r Hr. cbn [mcols]. rewrite forallb_forall in F. specialize (F r Hr). now apply Nat.eqb_eq.
Qed.

Lemma optimize_acq_ok (O : NumOrd N) ob rg fneg samp num seed sw sw' t p P :
  optimize_acq N W get_samples lbfgsb direct cma S ob rg fneg samp num seed sw = (sw', t, Ok (p, P)) ->
  mat_wf P /\ exists vs i, Forall2 (fun c v => fneg [c] = Ok [v]) (mrows P) vs /\ nth_error (mrows P) i = Some p /\ first_best N vs i.
Proof.
  unfold optimize_acq. intros H.
  apply bind_ok in H. destruct H as (w1 & u1 & pts & u2 & _ & H & _).
  apply bind_ok in H. destruct H as (w2 & u3 & P' & u4 & HA & H & _).
  apply bind_ok in H. destruct H as (w3 & u5 & p' & u6 & G & H & _).
  apply ret_ok in H. destruct H as (H & _ & _). inversion H; subst p' P'. clear H.
  apply lift_ok in HA. destruct HA as (HA & _ & _). apply lift_ok in G. destruct G as (G & _ & _).
  apply np_array_rows_ok in HA. destruct HA as [<- WF].
  split; [exact WF|]. apply (@by_evaluation_ok N O) in G. destruct G as (vs & i & F & A & B).
  exists vs, i. split; [|auto]. revert F. clear. induction 1; constructor; auto.
  unfold at_point in H. destruct (fneg [x]) as [lx|e]; [|discriminate]. cbn in H. destruct lx as [|v [|]]; try discriminate.
  congruence.
Qed.
End Pres.

Lemma check_points_ok P rg P' : mat_wf P -> check_points_in_bounds N P rg = Ok P' ->
  P' = P /\ mcols P = List.length rg /\ Forall (inside N rg) (mrows P).
Proof.
  intros WF H. assert (E : P' = P).
  { unfold check_points_in_bounds in H.
    repeat match goal with H : rbind (assert_ ?b) _ = Ok _ |- _ => destruct b; cbn [assert_ rbind] in H; [|discriminate] end.
    now apply Ok_inj in H. }
  subst P'. destruct (@check_points_in_bounds_iff N P rg WF) as [I _]. apply I in H. destruct H as [H1 H2].
  split; [reflexivity|]. split; [exact H1|]. apply Forall_forall. exact H2.
Qed.

Lemma check_point_ok rg p p' : check_point N rg p = Ok p' -> p' = p /\ inside N rg p.
Proof.
  unfold check_point. destruct (check_points_in_bounds N (mkmat [p] (List.length p)) rg) as [P|e] eqn:E; [|discriminate].
  cbn. intros H. apply Ok_inj in H. subst. split; [reflexivity|].
  apply check_points_ok in E. 2:{ intros r [<-|[]]. reflexivity. }
  destruct E as (_ & _ & F). now inversion F.
Qed.

Lemma Forall2_imp {A B} (P Q : A -> B -> Prop) l m : (forall a b, P a b -> Q a b) -> Forall2 P l m -> Forall2 Q l m.
Proof. induction 2; constructor; auto. Qed.

Notation negacq := (negacq N).
Lemma neg_scaled a : neg N (scaled N a) = negacq a.
Proof. unfold neg, scaled, negacq. now rewrite map_map. Qed.

Lemma massert_ok {S A} (b : bool) (k : unit -> M S (fitev N) A) w w' t r :
  bind (lift (assert_ b)) k w = (w', t, r) -> (b = true /\ k tt w = (w', t, r)) \/ (b = false /\ w' = w /\ t = [] /\ r = Raise AssertionError).
Proof.
  unfold bind, lift. destruct b; cbn [assert_].
  - destruct (k tt w) as [[? ?] ?]. intros H. left. split; [reflexivity|]. exact H.
  - intros H. inversion H; subst. right. auto.
Qed.

Lemma bind_pres_inv {S A B} (m : M (S * W) (fitev N) A) (k : A -> M (S * W) (fitev N) B) sw sw' t r :
  pres m -> bind m k sw = (sw', t, r) ->
  (exists e, r = Raise e /\ fst sw' = fst sw /\ t = [] /\ m sw = (sw', [], Raise e)) \/
  exists sw1 a, m sw = (sw1, [], Ok a) /\ fst sw1 = fst sw /\ k a sw1 = (sw', t, r).
Proof.
  intros P. unfold bind. destruct (m sw) as [[sw1 t1] [a|e]] eqn:E; pose proof (P _ _ _ _ E) as [P1 ->].
  - destruct (k a sw1) as [[sw2 t2] r2] eqn:E2. intros H. inversion H; subst. right. exists sw1, a. auto.
  - intros H. inversion H; subst. left. exists e. auto.
Qed.

Section GP.
Context (fit : mat N -> list N -> string -> string -> string -> bool -> W -> W * res (K * K * dict N)).
Context (kernel_inverse : mat N -> dict N -> string -> res (K * K)).
Context (neg_log_ml : mat N -> list N -> list N -> string -> bool -> res N).
Context (acq : string -> string -> mat N -> list N -> K -> K -> dict N -> list (list N) -> res (list N)).
Notation gp_optimize := (gp_optimize N W K get_samples lbfgsb direct cma time_ fit kernel_inverse neg_log_ml acq).
Notation gp_surrogate := (gp_surrogate N W K fit kernel_inverse neg_log_ml).
Notation gp_fit := (gp_fit N W K fit).
Notation combined_step := (combined_step N W K fit neg_log_ml).
Notation gp_state := (gp_state N).

Lemma gp_fit_run o meth X Y s w :
  gp_fit o meth X Y (s, w) =
  match fit X Y (go_cov N o) meth (go_msel N o) (go_ard N o) w with (w', r) => ((s, w'), [(meth, X, Y)], r) end.
Proof.
  unfold BOModel.gp_fit, bind, note, onW, ext. cbn. destruct (fit _ _ _ _ _ _ w) as [w' r]. reflexivity.
Qed.

Notation fits_on := (fits_on N).
Lemma combined_step_run o X Y meth best s w sw' t r :
  combined_step o X Y meth best (s, w) = (sw', t, r) ->
  fst sw' = s /\ t = [(meth, X, Y)] /\
  match r with
  | Ok b => exists f vec v w1, fit X Y (go_cov N o) meth (go_msel N o) (go_ard N o) w = (w1, Ok f) /\
        convert_hyps (go_cov N o) (snd f) true true = Ok vec /\ neg_log_ml X Y vec (go_cov N o) (go_ard N o) = Ok v /\
        b = (if better N v (option_map snd best) then Some (f, v) else best) /\ sw' = (s, w1)
  | Raise _ => True
  end.
Proof.
  unfold BOModel.combined_step. unfold bind at 1. rewrite gp_fit_run.
  destruct (fit X Y (go_cov N o) meth (go_msel N o) (go_ard N o) w) as [w1 [f|e]] eqn:F.
  2:{ intros H. inversion H; subst. auto. }
  unfold bind, lift. destruct (convert_hyps (go_cov N o) (snd f) true true) as [vec|e] eqn:C; cbn.
  2:{ intros H. inversion H; subst. auto. }
  destruct (neg_log_ml X Y vec (go_cov N o) (go_ard N o)) as [v|e] eqn:L; cbn.
  2:{ intros H. inversion H; subst. auto. }
  intros H. inversion H; subst. cbn. split; [reflexivity|]. split; [reflexivity|]. exists f, vec, v, w1. auto.
Qed.

Lemma mlm_cases mlm : str_in mlm ALLOWED_MLM_METHOD = true -> mlm = "regular" \/ mlm = "combined" \/ mlm = "converged".
Proof. rewrite str_in_In. cbn. intuition. Qed.

(** state effect of the surrogate step *)
Lemma gp_surrogate_run o mlm X Y s w sw' t r :
  str_in mlm ALLOWED_MLM_METHOD = true ->
  gp_surrogate o mlm X Y (s, w) = (sw', t, r) ->
  gs_hist N (fst sw') = gs_hist N s /\ fits_on X Y t /\
  (mlm <> "converged" -> gs_opt N (fst sw') = gs_opt N s) /\
  (mlm = "converged" -> gs_opt N s = false -> fst sw' = s /\ t = [] /\
     forall f, r = Ok f -> exists pre h, gs_hist N s = (pre ++ [Some h])%list /\ exists c i, kernel_inverse X h (go_cov N o) = Ok (c, i) /\ f = Some (c, i, h)) /\
  (mlm = "converged" -> gs_opt N s = true -> 
     (exists w1 w2 rf, fit X Y (go_cov N o) (go_opt_gp N o) (go_msel N o) (go_ard N o) w1 = (w2, rf) /\ t = [(go_opt_gp N o, X, Y)]) /\
     forall f, r = Ok f -> exists k, f = Some k /\ check_convergence N (gs_hist N s) (snd k) (go_cov N o) = Ok (negb (gs_opt N (fst sw')))).
Proof.
  intros Hm. apply mlm_cases in Hm. unfold BOModel.gp_surrogate, fits_on.
  destruct Hm as [->|[->| ->]].
  - change ("regular" =? "regular") with true. cbn iota. unfold bind. rewrite gp_fit_run.
    destruct (fit _ _ _ _ _ _ w) as [w1 [f|e]]; cbn; intros H; inversion H; subst; cbn.
    + split; [reflexivity|]. split; [repeat constructor|]. split; [auto|]. split; discriminate.
    + split; [reflexivity|]. split; [repeat constructor|]. split; [auto|]. split; discriminate.
  - change ("combined" =? "regular") with false. change ("combined" =? "combined") with true. cbn iota.
    unfold bind at 1. destruct (combined_step o X Y "BFGS" None (s, w)) as [[[s1 w1] t1] [b1|e]] eqn:E1;
      apply combined_step_run in E1; destruct E1 as (E1 & -> & R1); cbn in E1; subst s1.
    2:{ intros H. inversion H; subst; cbn. split; [reflexivity|]. split; [repeat constructor|]. split; [auto|]. split; discriminate. }
    unfold bind at 1. destruct (combined_step o X Y "Nelder-Mead" b1 (s, w1)) as [[[s2 w2] t2] [b2|e]] eqn:E2;
      apply combined_step_run in E2; destruct E2 as (E2 & -> & R2); cbn in E2; subst s2;
      cbn; intros H; inversion H; subst; cbn.
    + split; [reflexivity|]. split; [repeat constructor|]. split; [auto|]. split; discriminate.
    + split; [reflexivity|]. split; [repeat constructor|]. split; [auto|]. split; discriminate.
  - change ("converged" =? "regular") with false. change ("converged" =? "combined") with false.
    change ("converged" =? "converged") with true. cbn iota.
    unfold bind at 1, getS at 1. cbn [fst]. destruct (gs_opt N s) eqn:Eo.
    + unfold bind at 1. rewrite gp_fit_run.
      destruct (fit X Y (go_cov N o) (go_opt_gp N o) (go_msel N o) (go_ard N o) w) as [w1 [f|e]] eqn:F.
      2:{ intros H. inversion H; subst; cbn. split; [reflexivity|]. split; [repeat constructor|]. split; [congruence|].
          split; [congruence|]. intros _ _. split; [eauto 10|discriminate]. }
      unfold bind at 1, getS at 1. cbn [fst]. unfold bind at 1, lift.
      destruct (check_convergence N (gs_hist N s) (snd f) (go_cov N o)) as [c|e] eqn:C.
      2:{ intros H. inversion H; subst; cbn. split; [reflexivity|]. split; [repeat constructor|]. split; [congruence|].
          split; [congruence|]. intros _ _. split; [eauto 10|discriminate]. }
      cbn. intros H. inversion H; subst; cbn. split; [reflexivity|]. split; [repeat constructor|]. split; [congruence|].
      split; [congruence|]. intros _ _. split; [eauto 10|]. intros f' Hf. inversion Hf; subst. exists f. split; [reflexivity|].
      now rewrite negb_involutive.
    + destruct (rev (gs_hist N s)) as [|[h|] l] eqn:R.
      * intros H. inversion H; subst; cbn. split; [reflexivity|]. split; [constructor|]. split; [congruence|]. split; [|congruence].
        intros _ _. split; [reflexivity|]. split; [reflexivity|discriminate].
      * unfold bind, lift. destruct (kernel_inverse X h (go_cov N o)) as [[c i]|e] eqn:KI; cbn; intros H; inversion H; subst; cbn;
          (split; [reflexivity|]); (split; [constructor|]); (split; [congruence|]); (split; [|congruence]);
          intros _ _; (split; [reflexivity|]); (split; [reflexivity|]); [|discriminate].
        intros f Hf. inversion Hf; subst. exists (rev l), h. split; [|eauto].
        rewrite <- (rev_involutive (gs_hist N s)), R. reflexivity.
      * intros H. inversion H; subst; cbn. split; [reflexivity|]. split; [constructor|]. split; [congruence|]. split; [|congruence].
        intros _ _. split; [reflexivity|]. split; [reflexivity|discriminate].
Qed.

Definition gp_rest (o : gp_obj N) X Y samp num seed t0 Yn ts0 (f : option (K * K * dict N)) : M (gp_state * W) (fitev N) (list N * gp_info N K) :=
  mlet ts1 <- tick N W time_ gp_state;
  mlet ta0 <- tick N W time_ gp_state;
  let fneg pts := match f with
                  | None => Raise AssertionError
                  | Some (c, i, h) => do a <- acq (go_acq N o) (go_cov N o) X Yn c i h pts; Ok (neg N (scaled N a))
                  end in
  mlet r <- optimize_acq N W get_samples lbfgsb direct cma gp_state (go_opt_bo N o) (go_range N o) fneg samp num seed;
  let (next_point, next_points) := r in
  mlet next_point <- lift (check_point N (go_range N o) next_point);
  mlet next_points <- lift (check_points_in_bounds N next_points (go_range N o));
  mlet ta1 <- tick N W time_ gp_state;
  mlet acqs <- lift (fneg (mrows next_points));
  mlet t1 <- tick N W time_ gp_state;
  match f with
  | None => raise AssertionError
  | Some (c, i, h) =>
      ret (next_point, mkgpi N K next_points acqs Y Yn c i h (nsub N ts1 ts0) (nsub N ta1 ta0) (nsub N t1 t0))
  end.

Lemma pres_gp_rest o X Y samp num seed t0 Yn ts0 f : pres (gp_rest o X Y samp num seed t0 Yn ts0 f).
Proof.
  unfold gp_rest. apply pres_bind; [apply pres_tick|intros]. apply pres_bind; [apply pres_tick|intros].
  apply pres_bind; [apply pres_optimize_acq|intros [? ?]].
  apply pres_bind; [apply pres_lift|intros]. apply pres_bind; [apply pres_lift|intros].
  apply pres_bind; [apply pres_tick|intros]. apply pres_bind; [apply pres_lift|intros]. apply pres_bind; [apply pres_tick|intros].
  destruct f as [[[? ?] ?]|]; [apply pres_ret|apply pres_raise].
Qed.

Lemma gp_rest_ok (O : NumOrd N) o X Y samp num seed t0 Yn ts0 f sw sw' t np gi :
  gp_rest o X Y samp num seed t0 Yn ts0 f sw = (sw', t, Ok (np, gi)) ->
  f = Some (gi_cov N K gi, gi_inv N K gi, gi_hyps N K gi) /\
  gi_Yorig N K gi = Y /\ gi_Ynorm N K gi = Yn /\
  inside N (go_range N o) np /\ Forall (inside N (go_range N o)) (mrows (gi_points N K gi)) /\
  mcols (gi_points N K gi) = List.length (go_range N o) /\
  let g pts := acq (go_acq N o) (go_cov N o) X Yn (gi_cov N K gi) (gi_inv N K gi) (gi_hyps N K gi) pts in
  rmap negacq (g (mrows (gi_points N K gi))) = Ok (gi_acqs N K gi) /\
  exists vs i, Forall2 (fun c v => rmap negacq (g [c]) = Ok [v]) (mrows (gi_points N K gi)) vs /\
    nth_error (mrows (gi_points N K gi)) i = Some np /\ first_best N vs i.
Proof.
  unfold gp_rest. intros H. apply bind_ok in H. destruct H as (w1 & u1 & ts1 & u2 & _ & H & _).
  apply bind_ok in H. destruct H as (w2 & u3 & ta0 & u4 & _ & H & _).
  apply bind_ok in H. destruct H as (w3 & u5 & [p P] & u6 & HO & H & _).
  apply bind_ok in H. destruct H as (w4 & u7 & p' & u8 & HP & H & _).
  apply bind_ok in H. destruct H as (w5 & u9 & P' & u10 & HPs & H & _).
  apply bind_ok in H. destruct H as (w6 & u11 & ta1 & u12 & _ & H & _).
  apply bind_ok in H. destruct H as (w7 & u13 & a & u14 & HA & H & _).
  apply bind_ok in H. destruct H as (w8 & u15 & t1 & u16 & _ & H & _).
  apply lift_ok in HP. destruct HP as (HP & _). apply lift_ok in HPs. destruct HPs as (HPs & _).
  apply lift_ok in HA. destruct HA as (HA & _).
  destruct f as [[[c i] h]|]; [|discriminate].
  apply ret_ok in H. destruct H as (H & _ & _). inversion H; subst. cbn [gi_points gi_acqs gi_Yorig gi_Ynorm gi_cov gi_inv gi_hyps].
  apply (optimize_acq_ok O) in HO. destruct HO as (WF & vs & k & F & A & B).
  apply check_point_ok in HP. destruct HP as (-> & HP). apply check_points_ok in HPs; [|exact WF]. destruct HPs as (-> & C & FP).
  split; [reflexivity|]. split; [reflexivity|]. split; [reflexivity|]. split; [exact HP|]. split; [exact FP|]. split; [exact C|].
  cbv zeta. split.
  - revert HA. destruct (acq _ _ _ _ _ _ _ (mrows P)); cbn; [|discriminate]. now rewrite neg_scaled.
  - exists vs, k. split; [|auto]. eapply Forall2_imp; [|exact F]. cbv beta. intros x v Hx. revert Hx.
    destruct (acq _ _ _ _ _ _ _ [x]); cbn; [|discriminate]. now rewrite neg_scaled.
Qed.

Lemma gp_optimize_run o X Y samp num mlm seed s w sw' t r :
  gp_optimize o X Y samp num mlm seed (s, w) = (sw', t, r) ->
  (exists e, r = Raise e /\ fst sw' = s /\ t = []) \/
  (nrows X = List.length Y /\ mcols X = List.length (go_range N o) /\ (0 < num)%Z /\ str_in samp ALLOWED_SAMPLING_METHOD = true /\
   str_in mlm ALLOWED_MLM_METHOD = true /\
   exists Yn t0 ts0 w1, (if go_norm N o && negb (mlm =? "converged") then normalize_min_max N Y else Ok Y) = Ok Yn /\
     exists s2 w2 t2 rs, gp_surrogate o mlm X Yn (s, w1) = ((s2, w2), t2, rs) /\
       ((exists e, rs = Raise e /\ r = Raise e /\ sw' = (s2, w2) /\ t = t2) \/
        exists f, rs = Ok f /\ t = t2 /\
          gp_rest o X Y samp num seed t0 Yn ts0 f (mkgps N (gs_hist N s2 ++ [option_map snd f])%list (gs_opt N s2), w2) = (sw', [], r))).
Proof.
  unfold BOModel.gp_optimize. intros H.
  apply massert_ok in H. destruct H as [[B1 H]|(_ & -> & -> & ->)]; [|left; eexists; eauto].
  apply massert_ok in H. destruct H as [[B2 H]|(_ & -> & -> & ->)]; [|left; eexists; eauto].
  apply massert_ok in H. destruct H as [[B3 H]|(_ & -> & -> & ->)]; [|left; eexists; eauto].
  apply massert_ok in H. destruct H as [[B4 H]|(_ & -> & -> & ->)]; [|left; eexists; eauto].
  apply massert_ok in H. destruct H as [[B5 H]|(_ & -> & -> & ->)]; [|left; eexists; eauto].
  apply Nat.eqb_eq in B1, B2. apply Z.ltb_lt in B3.
  apply bind_pres_inv in H; [|apply pres_tick]. destruct H as [(e & -> & E & -> & _)|([s1 w1] & t0 & _ & E & H)]; [left; eauto|].
  cbn in E. subst s1.
  apply bind_pres_inv in H; [|apply pres_lift]. destruct H as [(e & -> & E & -> & _)|([s1 w2] & Yn & HY & E & H)]; [left; eauto|].
  cbn in E. subst s1. apply lift_ok in HY. destruct HY as (HY & _ & _).
  apply bind_pres_inv in H; [|apply pres_tick]. destruct H as [(e & -> & E & -> & _)|([s1 w3] & ts0 & _ & E & H)]; [left; eauto|].
  cbn in E. subst s1.
  right. repeat (split; [assumption|]). exists Yn, t0, ts0, w3. split; [exact HY|].
  unfold bind at 1 in H. destruct (gp_surrogate o mlm X Yn (s, w3)) as [[[s2 w4] t2] rs] eqn:G.
  exists s2, w4, t2, rs. split; [reflexivity|]. destruct rs as [f|e].
  2:{ inversion H; subst. left. eauto. }
  right. exists f. split; [reflexivity|].
  unfold bind at 1, getS at 1 in H. cbn [fst] in H. unfold bind at 1, putS at 1 in H. cbn [snd] in H.
  destruct (gp_rest o X Y samp num seed t0 Yn ts0 f (mkgps N (gs_hist N s2 ++ [option_map snd f])%list (gs_opt N s2), w4)) as [[sw5 t5] r5] eqn:R.
  assert (T5 : t5 = []) by (now apply pres_gp_rest in R). subst t5.
  unfold gp_rest in R. rewrite R in H. cbn in H. rewrite app_nil_r in H. inversion H; subst. split; reflexivity.
Qed.

(** ** the theorems *)
Theorem gp_optimize_ok (O : NumOrd N) o X Y samp num mlm seed s w s' w' t np gi :
  gp_optimize o X Y samp num mlm seed (s, w) = ((s', w'), t, Ok (np, gi)) ->
  gi_Yorig N K gi = Y /\
  (if go_norm N o && negb (mlm =? "converged") then normalize_min_max N Y = Ok (gi_Ynorm N K gi) else gi_Ynorm N K gi = Y) /\
  fits_on X (gi_Ynorm N K gi) t /\
  gs_hist N s' = (gs_hist N s ++ [Some (gi_hyps N K gi)])%list /\
  inside N (go_range N o) np /\ Forall (inside N (go_range N o)) (mrows (gi_points N K gi)) /\
  mcols (gi_points N K gi) = List.length (go_range N o) /\
  let g pts := acq (go_acq N o) (go_cov N o) X (gi_Ynorm N K gi) (gi_cov N K gi) (gi_inv N K gi) (gi_hyps N K gi) pts in
  rmap negacq (g (mrows (gi_points N K gi))) = Ok (gi_acqs N K gi) /\
  exists vs i, Forall2 (fun c v => rmap negacq (g [c]) = Ok [v]) (mrows (gi_points N K gi)) vs /\
    nth_error (mrows (gi_points N K gi)) i = Some np /\ first_best N vs i.
Proof.
  intros H. apply gp_optimize_run in H. destruct H as [(e & H & _)|H]; [discriminate|].
  destruct H as (_ & _ & _ & _ & Hm & Yn & t0 & ts0 & w1 & HY & s2 & w2 & t2 & rs & G & H).
  destruct H as [(e & _ & H & _)|(f & -> & -> & R)]; [discriminate|].
  pose proof (pres_gp_rest _ _ _ _ _ _ _ _ _ _ _ _ _ _ R) as [P _]. cbn in P. subst s'.
  apply (gp_rest_ok O) in R. destruct R as (-> & R1 & R2 & R3 & R4 & R5 & R6).
  apply gp_surrogate_run in G; [|exact Hm]. destruct G as (G1 & G2 & _). cbn in G1.
  split; [exact R1|]. rewrite R2. split.
  { destruct (go_norm N o && negb (mlm =? "converged")); [exact HY|now apply Ok_inj in HY]. }
  split; [exact G2|]. split; [cbn; now rewrite G1|]. split; [exact R3|]. split; [exact R4|]. split; [exact R5|exact R6].
Qed.

(** effect of one call on the attributes, whatever its outcome *)
Theorem gp_optimize_state o X Y samp num mlm seed s w s' w' t r :
  gp_optimize o X Y samp num mlm seed (s, w) = ((s', w'), t, r) ->
  (exists l, gs_hist N s' = (gs_hist N s ++ l)%list /\ (List.length l <= 1)%nat) /\
  (gs_opt N s = false -> gs_opt N s' = false) /\
  (mlm <> "converged" -> gs_opt N s' = gs_opt N s) /\
  (mlm = "converged" -> gs_opt N s = false ->
     t = [] /\ exists pre h, gs_hist N s' = gs_hist N s \/ (gs_hist N s = (pre ++ [Some h])%list /\ gs_hist N s' = (gs_hist N s ++ [Some h])%list)) /\
  (mlm = "converged" -> gs_opt N s = true -> forall np gi, r = Ok (np, gi) ->
     check_convergence N (gs_hist N s) (gi_hyps N K gi) (go_cov N o) = Ok (negb (gs_opt N s'))).
Proof.
  intros H. apply gp_optimize_run in H. destruct H as [(e & -> & E & ->)|H].
  { cbn in E. subst s'. split; [exists []; rewrite app_nil_r; auto|]. split; [auto|]. split; [auto|]. split; [|discriminate].
    intros _ _. split; [reflexivity|]. exists [], []. now left. }
  destruct H as (_ & _ & _ & _ & Hm & Yn & t0 & ts0 & w1 & HY & s2 & w2 & t2 & rs & G & H).
  apply gp_surrogate_run in G; [|exact Hm]. cbn [fst] in G. destruct G as (G1 & G2 & G3 & G4 & G5).
  assert (Mono : gs_opt N s = false -> gs_opt N s2 = false).
  { intros F. destruct (string_dec mlm "converged") as [E|E].
    - destruct (G4 E F) as [-> _]. exact F.
    - rewrite (G3 E). exact F. }
  destruct H as [(e & -> & -> & E & ->)|(f & -> & -> & R)].
  - inversion E; subst. split; [exists []; rewrite app_nil_r; auto|]. split; [exact Mono|]. split; [exact G3|]. split; [|discriminate].
    intros E1 E2. destruct (G4 E1 E2) as (-> & -> & _). split; [reflexivity|]. exists [], []. now left.
  - pose proof (pres_gp_rest _ _ _ _ _ _ _ _ _ _ _ _ _ _ R) as [P _]. cbn in P. subst s'. cbn [gs_hist gs_opt]. rewrite G1.
    split; [eexists; split; [reflexivity|cbn; lia]|]. split; [exact Mono|]. split; [exact G3|]. split.
    + intros E1 E2. destruct (G4 E1 E2) as (-> & -> & G). split; [reflexivity|].
      destruct (G f eq_refl) as (pre & h & Hh & c & i & _ & ->). exists pre, h. right. auto.
    + intros E1 E2 np gi ->. destruct (G5 E1 E2) as (_ & G). destruct (G f eq_refl) as (k & -> & C).
      assert (HK : Some k = Some (gi_cov N K gi, gi_inv N K gi, gi_hyps N K gi)).
      { unfold gp_rest in R. minv. destruct a1 as [p P]. minv. destruct k as [[c i] h]. minv. subst.
        match goal with H : (_, _) = (_, _) |- _ => inversion H; subst end. reflexivity. }
      inversion HK; subst. exact C.
Qed.

(** a frozen model stays frozen *)
Record gp_call : Type := mkcall { ca_X : mat N; ca_Y : list N; ca_samp : string; ca_num : Z; ca_mlm : string; ca_seed : option Z }.
Definition do_call (o : gp_obj N) (c : gp_call) := gp_optimize o (ca_X c) (ca_Y c) (ca_samp c) (ca_num c) (ca_mlm c) (ca_seed c).
(** a sequence of calls whose exceptions, if any, are caught by the caller *)
Fixpoint do_calls (o : gp_obj N) (cs : list gp_call) (sw : gp_state * W) : (gp_state * W) * list (list (fitev N) * res (list N * gp_info N K)) :=
  match cs with
  | [] => (sw, [])
  | c :: cs => let '(sw1, t, r) := do_call o c sw in
               let (sw2, l) := do_calls o cs sw1 in (sw2, (t, r) :: l)
  end.

Theorem gp_frozen o cs : forall s w pre h s' w' l,
  gs_opt N s = false -> gs_hist N s = (pre ++ [Some h])%list -> Forall (fun c => ca_mlm c = "converged") cs ->
  do_calls o cs (s, w) = ((s', w'), l) ->
  gs_opt N s' = false /\
  (exists k, gs_hist N s' = (gs_hist N s ++ repeat (Some h) k)%list) /\
  Forall (fun tr => fst tr = [] /\ forall np gi, snd tr = Ok (np, gi) -> gi_hyps N K gi = h) l.
Proof.
  induction cs as [|c cs IH]; intros s w pre h s' w' l Ho Hh F H; cbn [do_calls] in H.
  - inversion H; subst. split; [exact Ho|]. split; [exists 0%nat; cbn; now rewrite app_nil_r|constructor].
  - inversion F as [|? ? Fc Fcs]; subst.
    destruct (do_call o c (s, w)) as [[[s1 w1] t] r] eqn:C. destruct (do_calls o cs (s1, w1)) as [sw2 l2] eqn:D.
    inversion H; subst. unfold do_call in C. pose proof C as C0. apply gp_optimize_state in C.
    destruct C as (_ & M1 & _ & M2 & _). specialize (M1 Ho). destruct (M2 Fc Ho) as (-> & pre' & h' & Hd).
    assert (K1 : exists k, gs_hist N s1 = (gs_hist N s ++ repeat (Some h) k)%list).
    { destruct Hd as [E|[E1 E2]]; [exists 0%nat; now rewrite app_nil_r|]. rewrite Hh in E1. apply app_inj_tail in E1. destruct E1 as [_ E1].
      inversion E1; subst. exists 1%nat. exact E2. }
    destruct K1 as (k & K1).
    assert (Hh1 : exists pre1, gs_hist N s1 = (pre1 ++ [Some h])%list).
    { rewrite K1, Hh. destruct k as [|k]; [exists pre; now rewrite app_nil_r|].
      exists ((pre ++ [Some h]) ++ repeat (Some h) k)%list. rewrite <- (app_assoc (pre ++ [Some h])%list). f_equal. cbn [repeat]. apply repeat_cons. }
    destruct Hh1 as (pre1 & Hh1). destruct (IH s1 w1 pre1 h s' w' l2 M1 Hh1 Fcs D) as (I1 & (k2 & I2) & I3).
    split; [exact I1|]. split.
    + exists (k + k2)%nat. rewrite I2, K1, repeat_app, app_assoc. reflexivity.
    + constructor; [|exact I3]. split; [reflexivity|]. cbn. intros np gi ->.
      apply gp_optimize_run in C0. destruct C0 as [(e & E & _)|C0]; [discriminate|].
      destruct C0 as (_ & _ & _ & _ & Hm & Yn & t0 & ts0 & wq & HY & s2 & w2 & t2 & rs & G & C0).
      destruct C0 as [(e & _ & E & _)|(f & -> & E & R)]; [discriminate|].
      rewrite Fc in *. apply gp_surrogate_run in G; [|exact Hm]. cbn [fst] in G. destruct G as (_ & _ & _ & G4 & _).
      destruct (G4 eq_refl Ho) as (_ & _ & G). destruct (G f eq_refl) as (pre2 & h2 & Hq & cc & ii & _ & ->).
      rewrite Hh in Hq. apply app_inj_tail in Hq. destruct Hq as [_ Hq]. inversion Hq; subst h2.
      unfold gp_rest in R. minv. destruct a1 as [p P]. minv. subst.
      match goal with H : (_, _) = (_, _) |- _ => inversion H; subst end. reflexivity.
Qed.

(** ** combined mode *)
Theorem gp_combined o X Y s w sw' t f :
  gp_surrogate o "combined" X Y (s, w) = (sw', t, Ok f) ->
  exists w1 w2 f1 f2 vec1 vec2 v1 v2,
    fit X Y (go_cov N o) "BFGS" (go_msel N o) (go_ard N o) w = (w1, Ok f1) /\
    fit X Y (go_cov N o) "Nelder-Mead" (go_msel N o) (go_ard N o) w1 = (w2, Ok f2) /\
    convert_hyps (go_cov N o) (snd f1) true true = Ok vec1 /\ neg_log_ml X Y vec1 (go_cov N o) (go_ard N o) = Ok v1 /\
    convert_hyps (go_cov N o) (snd f2) true true = Ok vec2 /\ neg_log_ml X Y vec2 (go_cov N o) (go_ard N o) = Ok v2 /\
    ((nltinf N v1 = true /\ nlt N v2 v1 = false /\ f = Some f1) \/
     (nltinf N v1 = true /\ nlt N v2 v1 = true /\ f = Some f2) \/
     (nltinf N v1 = false /\ nltinf N v2 = true /\ f = Some f2) \/
     (nltinf N v1 = false /\ nltinf N v2 = false /\ f = None)).
Proof.
  unfold BOModel.gp_surrogate. change ("combined" =? "regular") with false. change ("combined" =? "combined") with true. cbn iota.
  intros H. apply bind_ok in H. destruct H as ([s1 w1] & t1 & b1 & t2 & E1 & H & _).
  apply bind_ok in H. destruct H as ([s2 w2] & t3 & b2 & t4 & E2 & H & _). apply ret_ok in H. destruct H as (<- & _ & _).
  apply combined_step_run in E1. destruct E1 as (_ & _ & f1 & vec1 & v1 & w1' & F1 & C1 & L1 & -> & E1). inversion E1; subst.
  apply combined_step_run in E2. destruct E2 as (_ & _ & f2 & vec2 & v2 & w2' & F2 & C2 & L2 & -> & E2). inversion E2; subst.
  exists w1', w2', f1, f2, vec1, vec2, v1, v2. repeat (split; [assumption|]). cbn [better option_map].
  destruct (nltinf N v1); cbn [option_map snd better].
  - destruct (nlt N v2 v1); cbn; [right; left|left]; auto.
  - destruct (nltinf N v2); cbn; [right; right; left|right; right; right]; auto.
Qed.
End GP.
End Proofs.
