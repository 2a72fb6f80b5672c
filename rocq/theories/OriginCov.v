(** Another origin of the inputs: kernel matrices, their gradients, fits, likelihoods and acquisition values do not change. *)
From Verif Require Import Base Lists Num NumLaws UtilsModel UtilsRProofs Monad HypsModel CovModel GPModel LikModel HypOptModel AcqModel TreesModel TreesUnitsSpec SamplingModel
  WrapperModel BOModel BOAcqModel BOFullModel RelProofs MoveSpec MoveProofs MoveRun OriginSpec.
From Coq Require Import List ZArith Bool String Lia Lra Arith Reals FunctionalExtensionality.
Import ListNotations.
Unset Asymmetric Patterns.
Set Bullet Behavior "Strict Subproofs".
Local Open Scope R_scope.
Notation N := NumR.

Tactic Notation "sb" ident(x) := match goal with |- rbind ?a _ = rbind ?a _ => let e := fresh "e" in destruct a as [x|e]; [cbn [rbind]|reflexivity] end.
Section Axes.
Context (ax : axes) (HT : translation ax).
Notation nd := (List.length ax).
Notation ci := (conv_in ax).
Notation cm := (conv_mat ax).
Notation sizedm := (sizedm ax).

Lemma scale_conv ls : forall ax, translation ax -> forall x y, List.length x = List.length ax -> List.length y = List.length ax ->
  vsub N (vscale N ls (conv_in ax x)) (vscale N ls (conv_in ax y)) = vsub N (vscale N ls x) (vscale N ls y).
Proof.
  clear. destruct ls as [s|l|o].
  - intros ax. induction ax as [|[a c] l IH]; intros HT [|u x] [|v y] H1 H2; try discriminate; [reflexivity|]. inversion HT as [|? ? P Q]; subst. injection H1 as H1. injection H2 as H2.
    pose proof (IH Q x y H1 H2) as E. unfold vsub, vscale in *. cbn in *. rewrite E. f_equal. cbn in P. subst a. unfold on_axis, Rdiv. cbn. ring.
  - intros ax. revert l. induction ax as [|[a c] ax1 IH]; intros l HT [|u x] [|v y] H1 H2; try discriminate; [destruct l; reflexivity|]. inversion HT as [|? ? P Q]; subst. injection H1 as H1. injection H2 as H2.
    destruct l as [|s l]; [reflexivity|]. pose proof (IH l Q x y H1 H2) as E. unfold vsub, vscale, CovModel.map2 in *. cbn in *. rewrite E. f_equal. cbn in P. subst a. unfold on_axis, Rdiv. cbn. ring.
  - intros ax HT x y H1 H2. exact (sub_conv ax HT x y H1 H2).
Qed.
Lemma dist_conv ls x y : List.length x = nd -> List.length y = nd -> cdist1 N (vscale N ls (ci x)) (vscale N ls (ci y)) = cdist1 N (vscale N ls x) (vscale N ls y).
Proof. intros H1 H2. unfold cdist1. now rewrite (scale_conv ls ax HT x y H1 H2). Qed.
Lemma coord_conv k : forall ax, translation ax -> forall x y, List.length x = List.length ax -> List.length y = List.length ax ->
  cdist1 N [@CovModel.coord N (conv_in ax x) k] [@CovModel.coord N (conv_in ax y) k] = cdist1 N [@CovModel.coord N x k] [@CovModel.coord N y k].
Proof.
  clear. induction k as [|k IH]; intros [|[a c] ax] HT [|u x] [|v y] H1 H2; try discriminate; try reflexivity; inversion HT as [|? ? P Q]; subst; injection H1 as H1; injection H2 as H2.
  - cbn in P. subst a. unfold cdist1, CovModel.coord, vsub. cbn. unfold on_axis. cbn. match goal with |- context [?p * ?u + ?c - (?p * ?v + ?c)] => replace (p * u + c - (p * v + c)) with (u - v) by ring end. reflexivity.
  - exact (IH ax Q x y H1 H2).
Qed.

Context (nexp : N -> N).
Lemma base_conv k X Xp ls signal : sizedm X -> sizedm Xp -> cov_base k (cm X) (cm Xp) ls signal = cov_base k X Xp ls signal.
Proof.
  intros S1 S2. unfold cov_base. cbn [mcols mrows conv_mat]. sb u0.  f_equal.
  rewrite map_map. apply map_ext_in. intros x Hx. rewrite map_map. apply map_ext_in. intros y Hy. unfold entry. f_equal. apply dist_conv; [exact (proj1 (Forall_forall _ _) S1 x Hx)|exact (proj1 (Forall_forall _ _) S2 y Hy)].
Qed.
Lemma alen_conv X : alen (A2 N (cm X)) = alen (A2 N X).
Proof. cbn. apply nrows_conv. Qed.
Lemma shape_conv X : shape (A2 N (cm X)) = shape (A2 N X).
Proof. unfold shape. now rewrite nrows_conv. Qed.
Lemma cov_conv s X Xp h same j : sizedm X -> sizedm Xp -> cov_main nexp s (A2 N (cm X)) (A2 N (cm Xp)) h same j = cov_main nexp s (A2 N X) (A2 N Xp) h same j.
Proof.
  intros S1 S2. unfold cov_main. rewrite !alen_conv. cbn [mcols conv_mat]. 
  sb u0.  sb c. destruct (str_in s ALLOWED_COV_BASE); [|reflexivity].
  destruct (Nat.eqb _ _); [|reflexivity]. cbn [assert_ rbind]. sb h'.
  sb k. sb ls. sb sg.
  now rewrite (base_conv k X Xp ls sg S1 S2).
Qed.
Lemma row_conv X i : sizedm X -> (i < nrows X)%nat -> nth i (mrows (cm X)) [] = ci (nth i (mrows X) []) /\ List.length (nth i (mrows X) []) = nd.
Proof.
  intros S L. split.
  - cbn [mrows conv_mat]. rewrite (nth_indep _ [] (ci [])) by (rewrite map_length; exact L). apply map_nth.
  - apply (proj1 (Forall_forall _ _) S). apply nth_In. exact L.
Qed.
Lemma gen_ext n m (f g : nat -> nat -> N) : (forall i j, (i < n)%nat -> (j < m)%nat -> f i j = g i j) -> mgen N n m f = mgen N n m g.
Proof. intros H. unfold mgen. apply map_ext_in. intros i Hi. apply map_ext_in. intros j Hj. apply in_seq in Hi, Hj. apply H; lia. Qed.
Lemma foldM_ext {A S} (f g : S -> A -> res S) l : (forall s a, f s a = g s a) -> forall s, foldM f l s = foldM g l s.
Proof. intros H. induction l as [|a l IH]; intros s; [reflexivity|]. cbn [foldM]. rewrite H. destruct (g s a); [|reflexivity]. cbn [rbind]. apply IH. Qed.
Lemma grad_conv t c X Xp h n fx : sizedm X -> sizedm Xp -> grad_cov nexp t c (cm X) (cm Xp) h n fx = grad_cov nexp t c X Xp h n fx.
Proof.
  intros S1 S2. unfold grad_cov. rewrite !nrows_conv. sb ls. destruct (if fx then _ else _) as [[g k]|e]; [|reflexivity]. cbn [rbind].
  sb sg. sb g'.
  assert (D : forall i j, (i < nrows X)%nat -> (j < nrows Xp)%nat -> cdist1 N (vscale N ls (nth i (mrows (cm X)) [])) (vscale N ls (nth j (mrows (cm Xp)) [])) = cdist1 N (vscale N ls (nth i (mrows X) [])) (vscale N ls (nth j (mrows Xp) []))).
  { intros i j Hi Hj. destruct (row_conv X i S1 Hi) as (-> & L1). destruct (row_conv Xp j S2 Hj) as (-> & L2). now apply dist_conv. }
  destruct ls as [s|l|o]; [| |reflexivity].
  - f_equal. apply gen_ext. intros i j Hi Hj. now rewrite (D i j Hi Hj).
  - apply foldM_ext. intros g0 k0. f_equal. apply gen_ext. intros i j Hi Hj. rewrite (D i j Hi Hj).
    destruct (row_conv X i S1 Hi) as (-> & L1). destruct (row_conv Xp j S2 Hj) as (-> & L2). now rewrite (coord_conv k0 ax HT _ _ L1 L2).
Qed.
Lemma grad_main_conv s X Xp h fx same j : sizedm X -> sizedm Xp -> grad_cov_main nexp s (A2 N (cm X)) (A2 N (cm Xp)) h fx same j = grad_cov_main nexp s (A2 N X) (A2 N Xp) h fx same j.
Proof.
  intros S1 S2. unfold grad_cov_main. rewrite (cov_conv s X Xp h same j S1 S2), shape_conv. sb u0. sb u1.
  sb ls. sb c. sb t.
  now apply grad_conv.
Qed.
Lemma train_conv X h s : sizedm X -> train_cov nexp (A2 N (cm X)) h s = train_cov nexp (A2 N X) h s.
Proof. intros S. unfold train_cov. rewrite alen_conv, (cov_conv s X X h true _ S S). reflexivity. Qed.
Lemma inverse_conv inv X h s fx ug : sizedm X -> get_kernel_inverse nexp inv (A2 N (cm X)) h s fx ug = get_kernel_inverse nexp inv (A2 N X) h s fx ug.
Proof. intros S. unfold get_kernel_inverse. rewrite shape_conv, (train_conv X h s S), (grad_main_conv s X X h fx true _ S S). reflexivity. Qed.
Lemma cholesky_conv chol X h s fx ug : sizedm X -> get_kernel_cholesky nexp chol (A2 N (cm X)) h s fx ug = get_kernel_cholesky nexp chol (A2 N X) h s fx ug.
Proof. intros S. unfold get_kernel_cholesky. rewrite shape_conv, alen_conv, (train_conv X h s S), (grad_main_conv s X X h fx true _ S S). reflexivity. Qed.

(** ** likelihoods and fits *)
Context (nlog : N -> N) (npi : N) (inv chol : list (list N) -> res (list (list N))) (cho_solve : list (list N) -> list (list N) -> res (list (list N))) (slogdet : list (list N) -> N * N)
  (ngamma ndigamma : N -> N).
Lemma checks_conv X Y p s : checks (A2 N (cm X)) Y p s = checks (A2 N X) Y p s.
Proof. unfold checks, validate_common_args. rewrite shape_conv, alen_conv. reflexivity. Qed.
Lemma nlml_conv X Y v s p ard fx uc ug : sizedm X ->
  neg_log_ml nexp nlog npi inv chol cho_solve slogdet (A2 N (cm X)) Y v s p ard fx uc ug = neg_log_ml nexp nlog npi inv chol cho_solve slogdet (A2 N X) Y v s p ard fx uc ug.
Proof.
  intros S. unfold neg_log_ml. rewrite checks_conv, alen_conv. sb u0.  sb h.
  now rewrite (cholesky_conv chol X h s fx ug S), (inverse_conv inv X h s fx false S).
Qed.
Lemma loo_conv X Y v s p fx : sizedm X -> neg_log_pseudo_l_loocv nexp nlog npi inv (A2 N (cm X)) Y v s p fx = neg_log_pseudo_l_loocv nexp nlog npi inv (A2 N X) Y v s p fx.
Proof.
  intros S. unfold neg_log_pseudo_l_loocv. rewrite checks_conv, alen_conv. sb u0.  sb h.
  now rewrite (inverse_conv inv X h s fx false S).
Qed.
Lemma tp_nlml_conv X Y v s p ard fx ug : sizedm X ->
  tp_neg_log_ml nexp nlog npi inv slogdet ngamma ndigamma (A2 N (cm X)) Y v s p ard fx ug = tp_neg_log_ml nexp nlog npi inv slogdet ngamma ndigamma (A2 N X) Y v s p ard fx ug.
Proof.
  intros S. unfold tp_neg_log_ml. rewrite checks_conv, alen_conv. sb u0.  sb h.
  now rewrite (inverse_conv inv X h s fx ug S).
Qed.
Context (prior prior' : prior N) (HP : same_prior ax prior prior').
Lemma prior_conv X : sizedm X -> get_prior_mu prior' (A2 N (cm X)) = get_prior_mu prior (A2 N X).
Proof.
  intros S. unfold get_prior_mu. destruct prior as [f|], prior' as [f'|]; cbn in HP; try contradiction; rewrite alen_conv; [|reflexivity]. now rewrite (HP X (proj1 (Forall_forall _ _) S)).
Qed.
Lemma dim_conv X s : num_dim (A2 N (cm X)) s = num_dim (A2 N X) s.
Proof. unfold num_dim. now rewrite shape_conv. Qed.
Lemma common_conv X Y : validate_common_args (A2 N (cm X)) Y None = validate_common_args (A2 N X) Y None.
Proof. unfold validate_common_args. now rewrite alen_conv. Qed.
Lemma kernel_conv mini X Y s o ms ard fx : sizedm X ->
  get_optimized_kernel nexp nlog npi inv chol cho_solve slogdet mini (A2 N (cm X)) Y prior' s o ms ard fx = get_optimized_kernel nexp nlog npi inv chol cho_solve slogdet mini (A2 N X) Y prior s o ms ard fx.
Proof.
  intros S. unfold get_optimized_kernel. rewrite common_conv, shape_conv, (prior_conv X S), dim_conv.
  assert (E : forall p ug, gp_objective nexp nlog npi inv chol cho_solve slogdet (A2 N (cm X)) Y p s ms ard fx ug = gp_objective nexp nlog npi inv chol cho_solve slogdet (A2 N X) Y p s ms ard fx ug).
  { intros p ug. apply functional_extensionality. intros v. unfold gp_objective. now rewrite (nlml_conv X Y v s p ard fx true ug S), (loo_conv X Y v s p fx S). }
  sb u0. sb u1. do 2 (destruct (str_in _ _); [|reflexivity]; cbn [assert_ rbind]).
  sb p. sb d. rewrite E.
  sb h0. sb s0.
  sb x.
  sb h. sb h'.
  now rewrite (inverse_conv inv X h' s fx false S).
Qed.
Lemma tp_kernel_conv mini X Y s o ard fx : sizedm X ->
  tp_get_optimized_kernel nexp nlog npi inv slogdet ngamma ndigamma mini (A2 N (cm X)) Y prior' s o ard fx = tp_get_optimized_kernel nexp nlog npi inv slogdet ngamma ndigamma mini (A2 N X) Y prior s o ard fx.
Proof.
  intros S. unfold tp_get_optimized_kernel. rewrite common_conv, shape_conv, (prior_conv X S), dim_conv.
  assert (E : forall p, (fun v => tp_neg_log_ml nexp nlog npi inv slogdet ngamma ndigamma (A2 N (cm X)) Y v s p ard fx false) = (fun v => tp_neg_log_ml nexp nlog npi inv slogdet ngamma ndigamma (A2 N X) Y v s p ard fx false)).
  { intros p. apply functional_extensionality. intros v. exact (tp_nlml_conv X Y v s p ard fx false S). }
  sb u0. sb u1. destruct (str_in _ _); [|reflexivity]. cbn [assert_ rbind].
  sb p. sb d. rewrite E.
  sb h0. sb s0.
  sb b.
  sb x.
  sb h. sb h'.
  now rewrite (inverse_conv inv X h' s fx false S).
Qed.

(** ** predictions and acquisition values *)
Lemma posterior_conv X Y Xs c i h s : sizedm X -> sizedm Xs -> posterior nexp (A2 N (cm X)) Y (A2 N (cm Xs)) c i h s prior' = posterior nexp (A2 N X) Y (A2 N Xs) c i h s prior.
Proof.
  intros S1 S2. unfold posterior, validate_common_args. rewrite !alen_conv, !shape_conv, (prior_conv X S1), (prior_conv Xs S2), (cov_conv s X Xs h false _ S1 S2), (cov_conv s Xs Xs h true _ S2 S2). reflexivity.
Qed.
Context (cdf pdf : N -> N).
Lemma shapes_conv d X Y Xs c i : shapes_ok N d (cm X) Y (cm Xs) c i = shapes_ok N d X Y Xs c i.
Proof. unfold shapes_ok. now rewrite !nrows_conv. Qed.
Lemma gp_post_conv d s X Y Xs c i h : sizedm X -> sizedm Xs -> gp_posteriors nexp d prior' s (cm X) Y (cm Xs) c i h = gp_posteriors nexp d prior s X Y Xs c i h.
Proof. intros S1 S2. unfold gp_posteriors, predict_with_cov. rewrite shapes_conv, (posterior_conv X _ Xs c i h s S1 S2), alen_conv. reflexivity. Qed.
Lemma tp_post_conv d s X Y Xs c i h : sizedm X -> sizedm Xs -> tp_posteriors nexp d prior' s (cm X) Y (cm Xs) c i h = tp_posteriors nexp d prior s X Y Xs c i h.
Proof. intros S1 S2. unfold tp_posteriors, tp_predict_with_cov. rewrite shapes_conv, (posterior_conv X _ Xs c i h s S1 S2), !alen_conv. reflexivity. Qed.
Lemma acqs_conv d acq (po po' : mat N -> list N -> mat N -> list (list N) -> list (list N) -> dict N -> res (list N * list N)) X Y c i h pts :
  (forall Xs, sizedm Xs -> po' (cm X) Y (cm Xs) c i h = po X Y Xs c i h) -> Forall (fun x => List.length x = nd) pts ->
  acquisitions cdf pdf nlog d acq po' (cm X) Y c i h (map ci pts) = acquisitions cdf pdf nlog d acq po X Y c i h pts.
Proof.
  intros HPO F. unfold acquisitions. assert (EB : batch N (map ci pts) = rmap cm (batch N pts)) by (destruct pts as [|p l]; [reflexivity|exact (array_conv ax (p :: l) F)]).
  rewrite EB. destruct (batch N pts) as [Xs|e] eqn:EX; [|reflexivity]. cbn [rmap rbind]. rewrite shapes_conv. destruct (shapes_ok _ _ _ _ _ _ _); [|reflexivity]. cbn [assert_ rbind].
  assert (FX : sizedm Xs) by (destruct pts as [|p l]; [discriminate|]; cbn [batch] in EX; unfold MoveProofs.sizedm; now rewrite (array_sized _ _ EX)).
  now rewrite (HPO Xs FX).
Qed.
Lemma gp_acq_conv d acq s X Y c i h pts : sizedm X -> Forall (fun x => List.length x = nd) pts ->
  gp_acq_full nexp nlog cdf pdf prior' d acq s (cm X) Y c i h (map ci pts) = gp_acq_full nexp nlog cdf pdf prior d acq s X Y c i h pts.
Proof. intros S F. unfold gp_acq_full, gp_acquisitions. apply acqs_conv; [|exact F]. intros Xs SX. now apply gp_post_conv. Qed.
Lemma tp_acq_conv d acq s X Y c i h pts : sizedm X -> Forall (fun x => List.length x = nd) pts ->
  tp_acq_full nexp nlog cdf pdf prior' d acq s (cm X) Y c i h (map ci pts) = tp_acq_full nexp nlog cdf pdf prior d acq s X Y c i h pts.
Proof. intros S F. unfold tp_acq_full, tp_acquisitions. apply acqs_conv; [|exact F]. intros Xs SX. now apply tp_post_conv. Qed.
End Axes.
