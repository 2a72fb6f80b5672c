(** The classes with their own surrogates: what a successful call of optimize reports (any number system). *)
From Verif Require Import Base Lists Num NumLaws UtilsModel UtilsSpec UtilsProofs HypsModel CovModel GPModel LikModel HypOptModel AcqModel TreesModel
  Monad WrapperModel BOModel BOSpec BOProofs BOProofs2 BOProps BOAcqModel BOAcqSpec BOAcqProofs BOFullModel.
From Coq Require Import List ZArith Bool String Lia Arith.
Import ListNotations.
Set Implicit Arguments.
Unset Strict Implicit.
Unset Asymmetric Patterns.
Set Bullet Behavior "Strict Subproofs".
Local Open Scope string_scope.

Section Any.
Context (N : Num).
Notation mx := (list (list N)).
Lemma squeeze1_inv (a : mx) l : squeeze1 N a = Ok l -> a = map (fun v => [v]) l.
Proof.
  unfold squeeze1. revert l. induction a as [|r a IH]; intros l; cbn [mapM rbind].
  - intros H. injection H as <-. reflexivity.
  - destruct r as [|x [|y r]]; cbn [rbind]; try discriminate.
    destruct (mapM _ a) as [l'|e]; cbn [rbind]; [|discriminate]. intros H. injection H as <-. cbn [map]. f_equal. now apply IH.
Qed.

Context (nexp : N -> N) (inv : mx -> res mx).
Lemma predict_at_hyps X Y Xs C B g h cov pm p :
  get_kernel_inverse nexp inv X h cov true false = Ok (C, B, g) -> predict_with_cov nexp X Y Xs C B h cov pm = Ok p ->
  predict_with_hyps nexp inv X Y Xs h cov pm = Ok p.
Proof.
  intros G H. unfold predict_with_hyps. pose proof H as H0. unfold predict_with_cov, posterior in H.
  destruct (validate_common_args X Y (Some Xs)) as [u|]; [|discriminate]. cbn [rbind] in H |- *.
  destruct (has_shape N _ _ B); [|discriminate]. cbn [assert_ rbind] in H.
  destruct (check_str_cov cov (shape X) (Some (shape Xs))) as [u'|]; [|discriminate]. cbn [rbind].
  rewrite G. cbn [rbind]. exact H0.
Qed.
Lemma tp_predict_at_hyps X Y Xs C B g h cov pm p :
  get_kernel_inverse nexp inv X h cov true false = Ok (C, B, g) -> tp_predict_with_cov nexp X Y Xs C B h cov pm = Ok p ->
  tp_predict_with_hyps nexp inv X Y Xs h cov pm = Ok p.
Proof.
  intros G H. unfold tp_predict_with_hyps. pose proof H as H0. unfold tp_predict_with_cov, posterior in H.
  destruct (validate_common_args X Y (Some Xs)) as [u|]; [|discriminate]. cbn [rbind] in H |- *.
  destruct (has_shape N _ _ B); [|discriminate]. cbn [assert_ rbind] in H.
  destruct (check_str_cov cov (shape X) (Some (shape Xs))) as [u'|]; [|discriminate]. cbn [rbind].
  rewrite G. cbn [rbind]. exact H0.
Qed.

Context (cdf pdf lg : N -> N).
(** the values computed by compute_acquisitions, from the predictions *)
Lemma acquisitions_inv num_dim str_acq post X Y C B h (P : mat N) a : mcols P = num_dim ->
  acquisitions cdf pdf lg num_dim str_acq post X Y C B h (mrows P) = Ok a ->
  exists noise f mu sd, noise_of h = Ok noise /\ choose_fun_acquisition N cdf pdf lg str_acq noise = Ok f /\
    post X Y P C B h = Ok (mu, sd) /\ f mu sd Y = Ok a.
Proof.
  intros HP. unfold acquisitions. destruct (batch N (mrows P)) as [Xs|e] eqn:E; [|discriminate]. cbn [rbind].
  apply batch_inv in E as (E1 & E2 & E3). unfold shapes_ok.
  destruct (Nat.eqb (nrows X) (List.length Y) && (Nat.eqb (mcols Xs) (mcols X) && Nat.eqb (mcols X) num_dim) && has_shape N (nrows X) (nrows X) C && has_shape N (nrows X) (nrows X) B) eqn:Q; [|discriminate].
  cbn [assert_ rbind].
  assert (XP : Xs = P).
  { apply andb_prop in Q as [Q _]. apply andb_prop in Q as [Q _]. apply andb_prop in Q as [_ Q]. apply andb_prop in Q as [Q1 Q2].
    apply Nat.eqb_eq in Q1, Q2. destruct Xs, P; cbn in *. congruence. }
  subst Xs. destruct (noise_of h) as [noise|e]; [|discriminate]. cbn [rbind].
  destruct (choose_fun_acquisition N cdf pdf lg str_acq noise) as [f|e] eqn:Ef; [|discriminate]. cbn [rbind].
  destruct (post X Y P C B h) as [[mu sd]|e]; [|discriminate]. cbn [rbind]. intros H. exists noise, f, mu, sd. auto.
Qed.
End Any.

Section Kernel.
Context (N : Num) (nexp nlog : N -> N) (npi : N).
Notation mx := (list (list N)).
Context (inv chol : mx -> res mx) (cho_solve : mx -> mx -> res mx) (slogdet : mx -> N * N) (ngamma ndigamma : N -> N).
(** the returned matrices are the kernel matrix at the returned hyperparameters and its inverse *)
Lemma gp_fitted_kernel mini X Y pm cov meth msel ard C B h :
  get_optimized_kernel nexp nlog npi inv chol cho_solve slogdet mini X Y pm cov meth msel ard true = Ok (C, B, h) ->
  exists g, get_kernel_inverse nexp inv X h cov true false = Ok (C, B, g).
Proof.
  unfold get_optimized_kernel. intros H.
  repeat match type of H with
  | (rbind ?m _ = Ok _) => destruct m eqn:?; cbn [rbind] in H; [|discriminate H]
  end.
  match type of H with (let '(_, _) := ?k in _) = _ => destruct k as [[c i] g] end. injection H as <- <- <-. eauto.
Qed.
Lemma tp_fitted_kernel mini X Y pm cov meth ard C B h :
  tp_get_optimized_kernel nexp nlog npi inv slogdet ngamma ndigamma mini X Y pm cov meth ard true = Ok (C, B, h) ->
  exists g, get_kernel_inverse nexp inv X h cov true false = Ok (C, B, g).
Proof.
  unfold tp_get_optimized_kernel. intros H.
  repeat match type of H with
  | (rbind ?m _ = Ok _) => destruct m eqn:?; cbn [rbind] in H; [|discriminate H]
  end.
  match type of H with (let '(_, _) := ?k in _) = _ => destruct k as [[c i] g] end. injection H as <- <- <-. eauto.
Qed.
End Kernel.

Section Surrogate.
Context (N : Num) (W K : Type).
Context (get_samples : string -> Z -> option Z -> W -> W * res (list (list N))).
Context (lbfgsb : (list N -> res N) -> list N -> list (N * N) -> W -> W * res (list N)).
Context (direct : (list N -> res N) -> list (N * N) -> W -> W * res (list N)).
Context (cma : (list N -> res N) -> list N -> list (N * N) -> W -> W * res (list N)).
Context (time_ : W -> W * N).
Context (fit : mat N -> list N -> string -> string -> string -> bool -> W -> W * res (K * K * dict N)).
Context (kernel_inverse : mat N -> dict N -> string -> res (K * K)).
Context (neg_log_ml : mat N -> list N -> list N -> string -> bool -> res N).
Context (acq : string -> string -> mat N -> list N -> K -> K -> dict N -> list (list N) -> res (list N)).
Context (o : gp_obj N) (X : mat N) (P : K -> K -> dict N -> Prop).
Hypothesis HF : forall Y meth w w' C B h, fit X Y (go_cov N o) meth (go_msel N o) (go_ard N o) w = (w', Ok (C, B, h)) -> P C B h.
Hypothesis HK : forall h C B, kernel_inverse X h (go_cov N o) = Ok (C, B) -> P C B h.
Lemma surrogate_kernel mlm Y s w sw' t C B h :
  gp_surrogate N W K fit kernel_inverse neg_log_ml o mlm X Y (s, w) = (sw', t, Ok (Some (C, B, h))) -> P C B h.
Proof.
  unfold gp_surrogate. destruct (mlm =? "regular").
  { unfold bind. rewrite gp_fit_run. destruct (fit _ _ _ _ _ _ w) as [w1 [f|e]] eqn:F; [|discriminate]. cbn. intros H. inversion H; subst. eapply HF; eauto. }
  destruct (mlm =? "combined").
  { unfold bind at 1. destruct (combined_step N W K fit neg_log_ml o X Y "BFGS" None (s, w)) as [[[s1 w1] t1] [b1|e]] eqn:E1; [|discriminate].
    apply combined_step_run in E1. destruct E1 as (_ & _ & f1 & v1 & n1 & w1' & F1 & _ & _ & B1 & _).
    unfold bind at 1. destruct (combined_step N W K fit neg_log_ml o X Y "Nelder-Mead" b1 (s1, w1)) as [[[s2 w2] t2] [b2|e]] eqn:E2; [|discriminate].
    apply combined_step_run in E2. destruct E2 as (_ & _ & f2 & v2 & n2 & w2' & F2 & _ & _ & B2 & _).
    cbn. intros H. inversion H as [[H0 H1 H2]]. clear H.
    assert (E : f1 = (C, B, h) \/ f2 = (C, B, h)).
    { destruct b2 as [[f v]|]; [|discriminate]. cbn in H2. injection H2 as ->.
      destruct (better N n2 (option_map snd b1)); [injection B2 as <- <-; now right|]. left. subst b1.
      destruct (better N n1 (option_map snd None)); [|discriminate]. injection B2 as <- <-. reflexivity. }
    destruct E as [-> | ->]; [eapply HF; eauto|eapply HF; eauto]. }
  destruct (mlm =? "converged"); [|discriminate].
  unfold bind at 1, getS at 1. cbn [fst]. destruct (gs_opt N s).
  - unfold bind at 1. rewrite gp_fit_run. destruct (fit _ _ _ _ _ _ w) as [w1 [f|e]] eqn:F; [|discriminate].
    unfold bind at 1, getS at 1. cbn [fst]. unfold bind at 1, lift. destruct (check_convergence N (gs_hist N s) (snd f) (go_cov N o)); [|discriminate].
    cbn. intros H. inversion H; subst. eapply HF; eauto.
  - destruct (rev (gs_hist N s)) as [|[h0|] l]; [discriminate| |discriminate].
    unfold bind, lift. destruct (kernel_inverse X h0 (go_cov N o)) as [[c i]|e] eqn:KI; [|discriminate]. cbn. intros H. inversion H; subst. now apply HK.
Qed.
Lemma optimize_kernel (O : NumOrd N) Y samp num mlm seed s w s' w' t np gi :
  gp_optimize N W K get_samples lbfgsb direct cma time_ fit kernel_inverse neg_log_ml acq o X Y samp num mlm seed (s, w) = ((s', w'), t, Ok (np, gi)) ->
  P (gi_cov N K gi) (gi_inv N K gi) (gi_hyps N K gi).
Proof.
  intros H. apply gp_optimize_run in H. destruct H as [(e & H & _)|H]; [discriminate|].
  destruct H as (_ & _ & _ & _ & Hm & Yn & t0 & ts0 & w1 & HY & s2 & w2 & t2 & rs & G & H).
  destruct H as [(e & _ & H & _)|(f & -> & -> & R)]; [discriminate|].
  apply (gp_rest_ok _ _ _ _ _ _ _ _ _ O) in R. destruct R as (-> & _). eapply surrogate_kernel. exact G.
Qed.
End Surrogate.
