(** Proofs for C134. *)
From Verif Require Import Base Lists Num UtilsModel HypsModel HypsSpec HypsProofs CovModel CovMx GPModel LikModel HypOptModel ShapeSpec.
From Coq Require Import List String ZArith Bool Lia.
Import ListNotations.
Unset Asymmetric Patterns.
Set Bullet Behavior "Strict Subproofs".
Local Open Scope string_scope.

Lemma bind_ok {A B} (m : res A) (f : A -> res B) b : rbind m f = Ok b -> exists a, m = Ok a /\ f a = Ok b.
Proof. destruct m as [a|]; [intros H; now exists a|discriminate]. Qed.
Lemma assert_ok {B} (b : bool) (k : res B) r : rbind (assert_ b) (fun _ => k) = Ok r -> b = true /\ k = Ok r.
Proof. destruct b; [now split|discriminate]. Qed.
Lemma assert_true (b : bool) u : assert_ b = Ok u -> b = true.
Proof. now destruct b. Qed.
Ltac inv1 H :=
  first [ apply assert_ok in H; let E := fresh "E" in destruct H as [E H]
        | apply bind_ok in H; let a := fresh "a" in let E := fresh "E" in destruct H as (a & E & H) ].

Section Shapes.
Context (N : Num).
Implicit Types a b : list (list N).
Lemma arr_mgen n m f : is_array n m (mgen N n m f).
Proof.
  split; [unfold mgen; now rewrite map_length, seq_length|]. intros r H. apply in_map_iff in H as (i & <- & _). now rewrite map_length, seq_length.
Qed.
Lemma arr_map2 (f : N -> N -> N) n m a b : is_array n m a -> is_array n m b -> is_array n m (map2 (map2 f) a b).
Proof.
  intros [La Ra] [Lb Rb]. split; [rewrite map2_length, La, Lb; apply Nat.min_id|].
  intros r H. unfold map2 at 1 in H. apply in_map_iff in H as ((x & y) & <- & H). cbn [fst snd].
  rewrite map2_length, (Ra x (in_combine_l _ _ _ _ H)), (Rb y (in_combine_r _ _ _ _ H)). apply Nat.min_id.
Qed.
Lemma arr_mmap f n m a : is_array n m a -> is_array n m (mmap N f a).
Proof.
  intros [L R]. unfold mmap. split; [now rewrite map_length|]. intros r H. apply in_map_iff in H as (x & <- & H). rewrite map_length. auto.
Qed.
Lemma in_lset {A} (l : list A) i v x : In x (lset l i v) -> x = v \/ In x l.
Proof.
  revert i. induction l as [|y l IH]; [easy|]. intros [|i]; cbn; intros [->|H]; auto. destruct (IH _ H); auto.
Qed.
Lemma lset_over {A} (l : list A) i v : (List.length l <= i)%nat -> lset l i v = l.
Proof. revert i. induction l as [|y l IH]; [easy|]. intros [|i] H; cbn in *; [lia|]. f_equal. apply IH. lia. Qed.
Lemma arr_mset n m a i j v : is_array n m a -> is_array n m (mset N a i j v).
Proof.
  intros [L R]. unfold mset. split; [now rewrite lset_length|]. intros r H.
  destruct (Nat.lt_ge_cases i (List.length a)) as [Hi|Hi].
  - apply in_lset in H as [->|H]; [|auto]. rewrite lset_length. apply R. now apply nth_In.
  - apply R. now rewrite lset_over in H.
Qed.

Lemma foldM_keeps {A S} (P : S -> Prop) (f : S -> A -> res S) l : (forall x s s', P s -> f s x = Ok s' -> P s') ->
  forall s s', P s -> foldM f l s = Ok s' -> P s'.
Proof.
  intros H. induction l as [|x l IH]; intros s s' HP E; cbn [foldM] in E; [injection E as <-; exact HP|].
  apply bind_ok in E as (s1 & E1 & E). eapply IH; [eapply H; eassumption|exact E].
Qed.

Context (nexp : N -> N).
Lemma cov_main_array cov (X Xp : arr N) h same j c : cov_main nexp cov X Xp h same j = Ok c -> is_array (alen X) (alen Xp) c.
Proof.
  unfold cov_main. intros H. inv1 H. inv1 H.
  assert (Z : is_array (alen X) (alen Xp) a).
  { destruct same.
    - inv1 E0. injection E0 as <-. apply Nat.eqb_eq in E1. rewrite <- E1. apply arr_map2; [apply arr_mgen|apply arr_mmap, arr_mgen].
    - injection E0 as <-. apply arr_mgen. }
  clear E0. destruct (str_in cov ALLOWED_COV_BASE).
  - destruct X as [x|]; [|discriminate]. destruct Xp as [xp|]; [|discriminate]. do 6 inv1 H. injection H as <-. apply arr_map2; [exact Z|].
    unfold cov_base in *. match goal with K : rbind (assert_ _) _ = Ok ?z |- is_array _ _ ?z => inv1 K; injection K as <- end.
    split; [apply map_length|]. intros r Hr. apply in_map_iff in Hr as (y & <- & _). apply map_length.
  - destruct (str_in cov ALLOWED_COV_SET); [|discriminate]. destruct (nth_error _ 1) as [b|]; [|discriminate].
    destruct X as [|x sx dx]; [discriminate|]. destruct Xp as [|xp sp dp]; [discriminate|]. do 4 inv1 H. destruct same; cbn [negb] in H.
    + revert H. apply foldM_keeps; [|exact Z]. intros i s s' Hs. apply foldM_keeps; [|exact Hs]. intros k t t' Ht Hk. do 3 inv1 Hk. injection Hk as <-.
      destruct (Nat.ltb i k); repeat apply arr_mset; exact Ht.
    + revert H. apply foldM_keeps; [|exact Z]. intros i s s' Hs Hk. do 3 inv1 Hk. injection Hk as <-. now apply arr_mset.
Qed.
Lemma kernel_inverse_array inv (X : arr N) h cov fn ug c ic g : get_kernel_inverse nexp inv X h cov fn ug = Ok (c, ic, g) ->
  is_array (alen X) (alen X) c /\ inv c = Ok ic.
Proof.
  unfold get_kernel_inverse. intros H. inv1 H. inv1 H. inv1 H. inv1 H. injection H as <- <- <-. split; [|assumption].
  unfold train_cov in E0. inv1 E0. inv1 E0. injection E0 as <-. apply arr_mmap, arr_map2; [|apply arr_mgen].
  apply arr_map2; [exact (cov_main_array _ _ _ _ _ _ _ E3)|apply arr_mmap, arr_mgen].
Qed.

(** what the checks accept *)
Lemma check_train (X : arr N) (Y : mat N) u : validate_common_args X Y None = Ok u -> alen X = nrows Y.
Proof. unfold validate_common_args. intros H. inv1 H. now apply Nat.eqb_eq. Qed.
Lemma in_base cov : str_in cov ALLOWED_COV_BASE = true -> In cov ["eq"; "se"; "matern32"; "matern52"].
Proof. intros H. apply str_in_In in H. exact H. Qed.
Lemma in_set cov : str_in cov ALLOWED_COV_SET = true -> In cov ["set_eq"; "set_se"; "set_matern32"; "set_matern52"].
Proof. intros H. apply str_in_In in H. exact H. Qed.
Lemma check_kernel cov (X : arr N) o u : check_str_cov cov (shape X) o = Ok u -> kernel_takes cov X.
Proof.
  unfold check_str_cov. intros H. destruct (str_in cov ALLOWED_COV_BASE) eqn:B.
  - inv1 H. destruct X; [|discriminate]. now apply in_base.
  - destruct (str_in cov ALLOWED_COV_SET) eqn:S.
    + inv1 H. destruct X; [discriminate|]. now apply in_set.
    + destruct (str_in cov ALLOWED_COV); discriminate.
Qed.
Lemma check_test cov (X : arr N) (Y : mat N) Xs u v : validate_common_args X Y (Some Xs) = Ok u -> check_str_cov cov (shape X) (Some (shape Xs)) = Ok v ->
  training_fits X Y cov /\ same_dimension X Xs.
Proof.
  intros H K. split; [split; [|exact (check_kernel _ _ _ _ K)]|].
  - unfold validate_common_args in H. inv1 H. now apply Nat.eqb_eq.
  - unfold validate_common_args in H. inv1 H.
    unfold check_str_cov in K. destruct (str_in cov ALLOWED_COV_BASE).
    + inv1 K. destruct X; [|discriminate]. destruct Xs; [|discriminate]. cbn [shape nth_error] in H. apply assert_true, Nat.eqb_eq in H. exact H.
    + destruct (str_in cov ALLOWED_COV_SET); [|destruct (str_in cov ALLOWED_COV); discriminate].
      inv1 K. destruct X; [discriminate|]. destruct Xs; [discriminate|]. cbn [shape nth_error] in H. apply assert_true, Nat.eqb_eq in H. exact H.
Qed.
Lemma prior_array (pm : prior N) X p : prior_returns_arrays pm -> get_prior_mu pm X = Ok p -> nrows p = alen X /\ mat_wf p.
Proof.
  destruct pm as [f|]; cbn; intros W H.
  - inv1 H. inv1 H. injection H as <-. apply Nat.eqb_eq in E0. split; [now symmetry|exact (W _ _ E)].
  - injection H as <-. destruct (arr_mgen (alen X) 1 (fun _ _ => nofZ N 0)) as [L R]. split; [exact L|exact R].
Qed.
Lemma prior_fit (pm : prior N) X p : get_prior_mu pm X = Ok p -> prior_fits pm X.
Proof.
  destruct pm as [f|]; cbn; [|easy]. intros H. inv1 H. inv1 H. injection H as <-. exists a. apply Nat.eqb_eq in E0. now repeat split.
Qed.
Lemma has_shape_array n m a : has_shape N n m a = true -> is_array n m a.
Proof.
  unfold has_shape. intros H. apply andb_true_iff in H as [L R]. apply Nat.eqb_eq in L. split; [exact L|]. intros r Hr. rewrite forallb_forall in R.
  now apply Nat.eqb_eq, R.
Qed.
Lemma posterior_array X Y Xs C B h cov pm y mu S : posterior nexp X Y Xs C B h cov pm = Ok (y, mu, S) ->
  data_fits X Y Xs cov pm /\ is_array (alen X) (alen X) B /\ (prior_returns_arrays pm -> is_array (alen Xs) 1 mu) /\ is_array (alen Xs) (alen Xs) S.
Proof.
  unfold posterior. intros H. inv1 H. inv1 H. inv1 H. inv1 H. inv1 H. inv1 H. inv1 H. inv1 H.
  destruct (check_test _ _ _ _ _ _ E E1) as [T D].
  destruct (negb (Nat.eqb (mcols a2) 1)) eqn:M; [discriminate|]. apply negb_false_iff, Nat.eqb_eq in M.
  destruct (has_shape N (alen X) (alen X) B) eqn:HB; [|discriminate]. injection H as <- <- <-.
  unfold centred in E6. destruct (Nat.eqb (mcols Y) 1 && Nat.eqb (mcols a1) 1) eqn:K; [|discriminate]. apply andb_true_iff in K as [K1 K2]. apply Nat.eqb_eq in K1, K2.
  repeat split; try assumption; try apply T; try (now apply (prior_fit pm _ _ E2)); try (now apply (prior_fit pm _ _ E3)); try apply (has_shape_array _ _ _ HB).
  - destruct (prior_array _ _ _ H E3) as [L W]. apply (arr_map2 (nadd N) (alen Xs) 1); [apply arr_mgen|split; [exact L|]]. intros r Hr. now rewrite (W r Hr).
  - intros r Hr. destruct (prior_array _ _ _ H E3) as [L W]. eapply (arr_map2 (nadd N) (alen Xs) 1); [apply arr_mgen|split; [exact L|]|exact Hr]. intros q Hq. now rewrite (W q Hq).
  - apply (arr_map2 (nsub N) (alen Xs) (alen Xs)); [|apply arr_mgen]. apply arr_mmap, arr_map2; [exact (cov_main_array _ _ _ _ _ _ _ E5)|apply arr_mgen].
  - intros r Hr. eapply (arr_map2 (nsub N) (alen Xs) (alen Xs)); [|apply arr_mgen|exact Hr]. apply arr_mmap, arr_map2; [exact (cov_main_array _ _ _ _ _ _ _ E5)|apply arr_mgen].
Qed.
Lemma deviations_array l S : is_array l 1 (deviations N l S).
Proof.
  unfold deviations, mdiag. split; [now rewrite !map_length, seq_length|]. intros r H. now apply in_map_iff in H as (x & <- & _).
Qed.
Lemma gp_cov_array X Y Xs C B h cov pm mu sd S : predict_with_cov nexp X Y Xs C B h cov pm = Ok (mu, sd, S) ->
  data_fits X Y Xs cov pm /\ predicted (alen Xs) pm mu sd S.
Proof.
  unfold predict_with_cov. intros H. inv1 H. destruct a as [[y m] S']. injection H as <- <- <-. apply posterior_array in E as (F & _ & M & A).
  split; [exact F|]. split; [exact M|]. split; [apply deviations_array|exact A].
Qed.
Lemma tp_cov_array X Y Xs C B h cov pm nu mu sd S : tp_predict_with_cov nexp X Y Xs C B h cov pm = Ok (nu, mu, sd, S) ->
  data_fits X Y Xs cov pm /\ predicted (alen Xs) pm mu sd S.
Proof.
  unfold tp_predict_with_cov. intros H. inv1 H. destruct a as [[y m] S']. inv1 H. injection H as _ <- <- <-. apply posterior_array in E as (F & _ & M & A).
  split; [exact F|]. split; [exact M|]. split; [apply deviations_array|now apply arr_mmap].
Qed.
Lemma gp_hyps_array inv X Y Xs h cov pm mu sd S : predict_with_hyps nexp inv X Y Xs h cov pm = Ok (mu, sd, S) ->
  data_fits X Y Xs cov pm /\ predicted (alen Xs) pm mu sd S.
Proof. unfold predict_with_hyps. intros H. do 3 inv1 H. destruct a1 as [[c i] g]. now apply gp_cov_array in H. Qed.
Lemma tp_hyps_array inv X Y Xs h cov pm nu mu sd S : tp_predict_with_hyps nexp inv X Y Xs h cov pm = Ok (nu, mu, sd, S) ->
  data_fits X Y Xs cov pm /\ predicted (alen Xs) pm mu sd S.
Proof. unfold tp_predict_with_hyps. intros H. do 3 inv1 H. destruct a1 as [[c i] g]. now apply tp_cov_array in H. Qed.
Context (nlog : N -> N) (npi : N) (inv chol : list (list N) -> res (list (list N))) (cho_solve : list (list N) -> list (list N) -> res (list (list N)))
  (slogdet : list (list N) -> N * N) (ngamma ndigamma : N -> N).
Lemma gp_opt_array mi X Y Xs cov opt pm fn mu sd S :
  predict_with_optimized_hyps nexp nlog npi inv chol cho_solve slogdet mi X Y Xs cov opt pm fn = Ok (mu, sd, S) ->
  data_fits X Y Xs cov pm /\ predicted (alen Xs) pm mu sd S.
Proof. unfold predict_with_optimized_hyps. intros H. do 4 inv1 H. destruct a1 as [[c i] g]. now apply gp_cov_array in H. Qed.
Lemma tp_opt_array mi X Y Xs cov opt pm fn nu mu sd S :
  tp_predict_with_optimized_hyps nexp nlog npi inv slogdet ngamma ndigamma mi X Y Xs cov opt pm fn = Ok (nu, mu, sd, S) ->
  data_fits X Y Xs cov pm /\ predicted (alen Xs) pm mu sd S.
Proof. unfold tp_predict_with_optimized_hyps. intros H. do 4 inv1 H. destruct a1 as [[c i] g]. now apply tp_cov_array in H. Qed.
(** kernels and likelihoods *)
Lemma gp_kernel_array mi X Y pm cov opt ms ard fn c ic h :
  get_optimized_kernel nexp nlog npi inv chol cho_solve slogdet mi X Y pm cov opt ms ard fn = Ok (c, ic, h) ->
  training_fits X Y cov /\ is_array (alen X) (alen X) c /\ inv c = Ok ic.
Proof.
  unfold get_optimized_kernel. cbv zeta. intros H. inv1 H. inv1 H. do 2 inv1 H. do 4 inv1 H. inv1 H. inv1 H. inv1 H. inv1 H.
  match goal with K : get_kernel_inverse _ _ _ _ _ _ _ = Ok ?k |- _ => destruct k as [[c' i'] g']; injection H as <- <- <-; apply kernel_inverse_array in K end.
  split; [|assumption]. split; [eapply check_train; eassumption|eapply check_kernel; eassumption].
Qed.
Lemma tp_kernel_array mi X Y pm cov opt ard fn c ic h :
  tp_get_optimized_kernel nexp nlog npi inv slogdet ngamma ndigamma mi X Y pm cov opt ard fn = Ok (c, ic, h) ->
  training_fits X Y cov /\ is_array (alen X) (alen X) c /\ inv c = Ok ic.
Proof.
  unfold tp_get_optimized_kernel. cbv zeta. intros H. inv1 H. inv1 H. inv1 H. do 5 inv1 H. inv1 H. inv1 H. inv1 H. inv1 H.
  match goal with K : get_kernel_inverse _ _ _ _ _ _ _ = Ok ?k |- _ => destruct k as [[c' i'] g']; injection H as <- <- <-; apply kernel_inverse_array in K end.
  split; [|assumption]. split; [eapply check_train; eassumption|eapply check_kernel; eassumption].
Qed.
Lemma checks_ok X (Y p : mat N) cov u : checks X Y p cov = Ok u -> training_fits X Y cov /\ nrows p = nrows Y.
Proof.
  unfold checks. intros H. inv1 H. inv1 H. apply andb_true_iff in E0 as [E1 E2]. apply Nat.eqb_eq in E1, E2.
  split; [split; [exact E1|exact (check_kernel _ _ _ _ H)]|now symmetry].
Qed.
End Shapes.

(** ** As stated *)
Lemma gp_arrays : forall N nexp nlog npi inv chol cho_solve slogdet minimize (X : arr N) Y Xs cov_X_X inv_cov_X_X hyps str_cov optimizer prior_mu fix_noise mu sd Sigma,
  predict_with_cov nexp X Y Xs cov_X_X inv_cov_X_X hyps str_cov prior_mu = Ok (mu, sd, Sigma) \/
  predict_with_hyps nexp inv X Y Xs hyps str_cov prior_mu = Ok (mu, sd, Sigma) \/
  predict_with_optimized_hyps nexp nlog npi inv chol cho_solve slogdet minimize X Y Xs str_cov optimizer prior_mu fix_noise = Ok (mu, sd, Sigma) ->
  data_fits X Y Xs str_cov prior_mu /\ predicted (alen Xs) prior_mu mu sd Sigma.
Proof. intros. destruct H as [H|[H|H]]; [now apply gp_cov_array in H|now apply gp_hyps_array in H|now apply gp_opt_array in H]. Qed.
Lemma tp_arrays : forall N nexp nlog npi inv slogdet gamma digamma minimize (X : arr N) Y Xs cov_X_X inv_cov_X_X hyps str_cov optimizer prior_mu fix_noise nu mu sd Sigma,
  tp_predict_with_cov nexp X Y Xs cov_X_X inv_cov_X_X hyps str_cov prior_mu = Ok (nu, mu, sd, Sigma) \/
  tp_predict_with_hyps nexp inv X Y Xs hyps str_cov prior_mu = Ok (nu, mu, sd, Sigma) \/
  tp_predict_with_optimized_hyps nexp nlog npi inv slogdet gamma digamma minimize X Y Xs str_cov optimizer prior_mu fix_noise = Ok (nu, mu, sd, Sigma) ->
  data_fits X Y Xs str_cov prior_mu /\ predicted (alen Xs) prior_mu mu sd Sigma.
Proof. intros. destruct H as [H|[H|H]]; [now apply tp_cov_array in H|now apply tp_hyps_array in H|now apply tp_opt_array in H]. Qed.
Lemma kernel_arrays : forall N nexp nlog npi inv chol cho_solve slogdet gamma digamma minimize (X : arr N) Y prior_mu str_cov optimizer modelselection use_ard fix_noise
    cov_X_X inv_cov_X_X hyps,
  get_optimized_kernel nexp nlog npi inv chol cho_solve slogdet minimize X Y prior_mu str_cov optimizer modelselection use_ard fix_noise = Ok (cov_X_X, inv_cov_X_X, hyps) \/
  tp_get_optimized_kernel nexp nlog npi inv slogdet gamma digamma minimize X Y prior_mu str_cov optimizer use_ard fix_noise = Ok (cov_X_X, inv_cov_X_X, hyps) ->
  training_fits X Y str_cov /\ is_array (alen X) (alen X) cov_X_X /\ inv cov_X_X = Ok inv_cov_X_X.
Proof. intros. destruct H as [H|H]; [now apply gp_kernel_array in H|now apply tp_kernel_array in H]. Qed.
Lemma likelihood_checks : forall N nexp nlog npi inv chol cho_solve slogdet gamma digamma (X : arr N) Y hyps str_cov prior_mu_train use_ard fix_noise use_cholesky use_gradient r v,
  neg_log_ml nexp nlog npi inv chol cho_solve slogdet X Y hyps str_cov prior_mu_train use_ard fix_noise use_cholesky use_gradient = Ok r \/
  tp_neg_log_ml nexp nlog npi inv slogdet gamma digamma X Y hyps str_cov prior_mu_train use_ard fix_noise use_gradient = Ok r \/
  neg_log_pseudo_l_loocv nexp nlog npi inv X Y hyps str_cov prior_mu_train fix_noise = Ok v ->
  training_fits X Y str_cov /\ nrows prior_mu_train = nrows Y.
Proof.
  intros. destruct H as [H|[H|H]]; [unfold neg_log_ml in H|unfold tp_neg_log_ml in H|unfold neg_log_pseudo_l_loocv in H]; inv1 H; eapply checks_ok; eassumption.
Qed.
