(** The acquisition values of the BO classes are computed point by point (any number system). *)
From Verif Require Import Base Lists Num UtilsModel HypsModel GPModel AcqModel AcqSpec AcqProofs TreesModel TreesPool CovModel CovMx BOModel BOAcqModel BOAcqSpec.
Import CovModel CovMx.
From Coq Require Import List ZArith Bool String Lia Arith.
Import ListNotations.
Set Implicit Arguments.
Unset Strict Implicit.
Unset Asymmetric Patterns.
Set Bullet Behavior "Strict Subproofs".

Section Points.
Context (N : Num) (nexp : N -> N).
Notation mx := (list (list N)).

Lemma shp_msub n m (a b : mx) : shp n m a -> shp n m b -> shp n m (msub N a b).
Proof.
  intros [La Ha] [Lb Hb]. split.
  - unfold msub. rewrite map2_length. lia.
  - intros r Hr. unfold msub in Hr. unfold CovModel.map2 at 1 in Hr. apply in_map_iff in Hr as [[x y] [<- I]].
    rewrite map2_length. cbn [fst snd]. pose proof (in_combine_l _ _ _ _ I). pose proof (in_combine_r _ _ _ _ I).
    rewrite Ha, Hb by assumption. lia.
Qed.
Lemma mget_msub n m (a b : mx) i j : shp n m a -> shp n m b -> (i < n)%nat -> (j < m)%nat ->
  mget N (msub N a b) i j = nsub N (mget N a i j) (mget N b i j).
Proof.
  intros A B Hi Hj. unfold mget, msub.
  rewrite (@map2_nth _ _ _ _ _ _ [] []); [|destruct A, B; lia|destruct A; lia].
  rewrite (@map2_nth _ _ _ _ _ _ (nofZ N 0) (nofZ N 0)); [reflexivity| |].
  - rewrite (shp_row A Hi), (shp_row B Hi). reflexivity.
  - now rewrite (shp_row A Hi).
Qed.
Lemma shp_mdot n k m (a b : mx) : shp n m (mdot N n k m a b). Proof. apply shp_mgen. Qed.
Lemma mget_mdot n k m (a b : mx) i j : (i < n)%nat -> (j < m)%nat ->
  mget N (mdot N n k m a b) i j = nsum N (map (fun l => nmul N (mget N a i l) (mget N b l j)) (seq 0 k)).
Proof. intros Hi Hj. unfold mdot. now rewrite mget_mgen. Qed.

(** kernel matrices between fixed inputs and a batch, and of a batch with itself *)
Lemma cov_cross name X d h jit :
  (exists e, forall pts, cov_main nexp name (A2 N X) (A2 N (mkmat pts d)) h false jit = Raise e) \/
  (exists k : list N -> list N -> N, forall pts, exists M, cov_main nexp name (A2 N X) (A2 N (mkmat pts d)) h false jit = Ok M /\
     shp (nrows X) (List.length pts) M /\
     forall i j, (i < nrows X)%nat -> (j < List.length pts)%nat -> mget N M i j = k (nth i (mrows X) []) (nth j pts [])).
Proof.
  unfold cov_main. destruct (str_in name ALLOWED_COV); cbn [assert_ rbind]; [|left; eexists; reflexivity].
  destruct (str_in name ALLOWED_COV_BASE).
  - cbn [mcols]. destruct (Nat.eqb (mcols X) d) eqn:ED; cbn [assert_ rbind]; [|left; eexists; reflexivity].
    destruct (validate_hyps_dict h name (Z.of_nat (mcols X)) true) as [h'|e]; cbn [rbind]; [|left; eexists; reflexivity].
    destruct (choose_fun_cov N nexp name) as [k|e]; cbn [rbind]; [|left; eexists; reflexivity].
    destruct (getls h') as [ls|e]; cbn [rbind]; [|left; eexists; reflexivity].
    destruct (dfloat h' "signal") as [s|e]; cbn [rbind]; [|left; eexists; reflexivity].
    unfold cov_base. cbn [mcols mrows].
    match goal with |- context [assert_ ?b] => destruct b end; cbn [assert_ rbind]; [|left; eexists; reflexivity].
    right. exists (fun x z => nadd N (nofZ N 0) (entry N k ls s x z)). intros pts. eexists. split; [reflexivity|].
    cbn [alen]. change (nrows (mkmat pts d)) with (List.length pts).
    assert (SC : shp (nrows X) (List.length pts) (map (fun x => map (entry N k ls s x) pts) (mrows X))).
    { split; [apply map_length|]. intros r Hr. apply in_map_iff in Hr as [x [<- _]]. apply map_length. }
    split; [apply shp_madd; [apply shp_zeros|exact SC]|].
    intros i j Hi Hj. rewrite (@mget_madd N (nrows X) (List.length pts)) by (try apply shp_zeros; assumption). f_equal.
    + unfold zeros. now rewrite mget_mgen.
    + unfold mget. rewrite (@nth_map_in _ _ _ _ []) by exact Hi. now rewrite (@nth_map_in _ _ _ _ []) by exact Hj.
  - destruct (str_in name ALLOWED_COV_SET); [|left; eexists; reflexivity].
    destruct (nth_error _ 1); left; eexists; reflexivity.
Qed.
Lemma cov_self name d h jit :
  (exists e, forall pts, cov_main nexp name (A2 N (mkmat pts d)) (A2 N (mkmat pts d)) h true jit = Raise e) \/
  (exists k : list N -> N, forall pts, exists M, cov_main nexp name (A2 N (mkmat pts d)) (A2 N (mkmat pts d)) h true jit = Ok M /\
     shp (List.length pts) (List.length pts) M /\
     forall j, (j < List.length pts)%nat -> mget N M j j = k (nth j pts [])).
Proof.
  unfold cov_main. destruct (str_in name ALLOWED_COV); cbn [assert_ rbind]; [|left; eexists; reflexivity].
  destruct (str_in name ALLOWED_COV_BASE).
  - cbn [mcols]. rewrite Nat.eqb_refl. cbn [assert_ rbind].
    destruct (validate_hyps_dict h name (Z.of_nat d) true) as [h'|e]; cbn [rbind];
      [|left; eexists; intros pts; rewrite Nat.eqb_refl; reflexivity].
    destruct (choose_fun_cov N nexp name) as [k|e]; cbn [rbind]; [|left; eexists; intros pts; rewrite Nat.eqb_refl; reflexivity].
    destruct (getls h') as [ls|e]; cbn [rbind]; [|left; eexists; intros pts; rewrite Nat.eqb_refl; reflexivity].
    destruct (dfloat h' "signal") as [s|e]; cbn [rbind]; [|left; eexists; intros pts; rewrite Nat.eqb_refl; reflexivity].
    unfold cov_base. cbn [mcols mrows].
    match goal with |- context [assert_ (match ls with _ => _ end)] => idtac end.
    set (chk := match ls with PFloat _ _ => _ | PArr _ _ => _ | POther _ _ => _ end).
    destruct chk; cbn [assert_ rbind]; [|left; eexists; intros pts; rewrite Nat.eqb_refl; reflexivity].
    right. exists (fun z => nadd N (nadd N (nofZ N 0) (nmul N (nofZ N 1) jit)) (entry N k ls s z z)). intros pts. rewrite Nat.eqb_refl. cbn [assert_ rbind].
    eexists. split; [reflexivity|]. cbn [alen]. change (nrows (mkmat pts d)) with (List.length pts). set (l := List.length pts).
    assert (SC : shp l l (map (fun x => map (entry N k ls s x) pts) pts)).
    { split; [apply map_length|]. intros r Hr. apply in_map_iff in Hr as [x [<- _]]. apply map_length. }
    assert (SE : shp l l (mmap N (fun e => nmul N e jit) (eye N l l))) by (apply shp_mmap, shp_eye).
    assert (S0 : shp l l (madd N (zeros N l l) (mmap N (fun e => nmul N e jit) (eye N l l)))) by (apply shp_madd; [apply shp_zeros|exact SE]).
    split; [apply shp_madd; assumption|].
    intros j Hj. rewrite (@mget_madd N l l) by assumption. f_equal.
    + rewrite (@mget_madd N l l) by (try apply shp_zeros; assumption). f_equal; [unfold zeros; now rewrite mget_mgen|].
      rewrite (@mget_mmap N l l) by (try apply shp_eye; assumption). unfold eye. rewrite mget_mgen by assumption. now rewrite Nat.eqb_refl.
    + unfold mget. rewrite (@nth_map_in _ _ _ _ []) by exact Hj. now rewrite (@nth_map_in _ _ _ _ []) by exact Hj.
  - left. destruct (str_in name ALLOWED_COV_SET); [|eexists; intros pts; rewrite Nat.eqb_refl; reflexivity].
    destruct (nth_error _ 1); eexists; intros pts; rewrite Nat.eqb_refl; reflexivity.
Qed.

Lemma prior_points pm d : row_by_row pm -> exists g, forall pts, exists p, get_prior_mu pm (A2 N (mkmat pts d)) = Ok p /\
  mcols p = 1%nat /\ shp (List.length pts) 1 (mrows p) /\ forall j, (j < List.length pts)%nat -> mget N (mrows p) j 0 = g (nth j pts []).
Proof.
  destruct pm as [f|]; cbn [row_by_row get_prior_mu alen].
  - intros (g & G). exists g. intros pts. rewrite G. cbn [rbind mrows]. change (nrows (mkmat pts d)) with (List.length pts).
    change (nrows {| mrows := map (fun x => [g x]) pts; mcols := 1 |}) with (List.length (map (fun x => [g x]) pts)).
    rewrite map_length, Nat.eqb_refl. cbn [assert_ rbind]. eexists. split; [reflexivity|]. split; [reflexivity|]. cbn [mrows]. split.
    + split; [apply map_length|]. intros r Hr. apply in_map_iff in Hr as [x [<- _]]. reflexivity.
    + intros j Hj. unfold mget. now rewrite (@nth_map_in _ _ _ _ []) by exact Hj.
  - intros _. exists (fun _ => nofZ N 0). intros pts. eexists. split; [reflexivity|]. split; [reflexivity|]. cbn [mrows].
    change (nrows (mkmat pts d)) with (List.length pts). split; [apply shp_zeros|]. intros j Hj. unfold zeros. rewrite mget_mgen; [reflexivity|exact Hj|lia].
Qed.

Lemma posterior_points name X Y d C B h pm : row_by_row pm ->
  (exists e, forall pts, posterior nexp (A2 N X) Y (A2 N (mkmat pts d)) C B h name pm = Raise e) \/
  (exists r fm fv, forall pts, exists mu S, posterior nexp (A2 N X) Y (A2 N (mkmat pts d)) C B h name pm = Ok (r, mu, S) /\
     shp (List.length pts) 1 mu /\ shp (List.length pts) (List.length pts) S /\
     forall j, (j < List.length pts)%nat -> mget N mu j 0 = fm (nth j pts []) /\ mget N S j j = fv (nth j pts [])).
Proof.
  intros RW. unfold posterior. cbn [alen].
  assert (V : exists v, forall pts, validate_common_args (A2 N X) Y (Some (A2 N (mkmat pts d))) = v).
  { eexists. intros pts. unfold validate_common_args. cbn [shape nth_error mcols]. reflexivity. }
  destruct V as ([u|e] & V); [|left; exists e; intros pts; now rewrite V].
  destruct (has_shape N (List.length C) (List.length (nth 0 C [])) B) eqn:HB;
    [|left; exists AssertionError; intros pts; rewrite V; reflexivity].
  assert (K : exists v, forall pts, check_str_cov name (shape (A2 N X)) (Some (shape (A2 N (mkmat pts d)))) = v).
  { eexists. intros pts. unfold check_str_cov. cbn [shape List.length]. reflexivity. }
  destruct K as ([u'|e] & K); [|left; exists e; intros pts; rewrite V; cbn [rbind assert_]; now rewrite K].
  destruct (get_prior_mu pm (A2 N X)) as [pt|e] eqn:EP; [|left; exists e; intros pts; rewrite V; cbn [rbind assert_]; now rewrite K].
  destruct (prior_points d RW) as (g & G).
  destruct (cov_cross name X d h (JITTER_COV N)) as [(e & E)|(k & HK)].
  { left. exists e. intros pts. rewrite V; cbn [rbind assert_]; rewrite K; cbn [rbind]. destruct (G pts) as (p & -> & _). cbn [rbind]. now rewrite E. }
  destruct (cov_self name d h (JITTER_COV N)) as [(e & E)|(q & HQ)].
  { left. exists e. intros pts. rewrite V; cbn [rbind assert_]; rewrite K; cbn [rbind]. destruct (G pts) as (p & -> & _). cbn [rbind].
    destruct (HK pts) as (M & -> & _). cbn [rbind]. now rewrite E. }
  destruct (centred N Y pt) as [r|e] eqn:EC.
  2: { left. exists e. intros pts. rewrite V; cbn [rbind assert_]; rewrite K; cbn [rbind]. destruct (G pts) as (p & -> & _). cbn [rbind].
    destruct (HK pts) as (M & -> & _). cbn [rbind]. destruct (HQ pts) as (Q & -> & _). cbn [rbind]. now rewrite EC. }
  set (n := nrows X).
  destruct (has_shape N n n B) eqn:HB2.
  2: { left. exists ValueError. intros pts. rewrite V; cbn [rbind assert_]; rewrite K; cbn [rbind]. destruct (G pts) as (p & -> & Cp & _). cbn [rbind].
    destruct (HK pts) as (M & -> & _). cbn [rbind]. destruct (HQ pts) as (Q & -> & _). cbn [rbind]. rewrite EC. cbn [rbind]. rewrite Cp. reflexivity. }
  right. set (kx z b := k (nth b (mrows X) []) z).
  set (wf z a := nsum N (map (fun b => nmul N (kx z b) (mget N B b a)) (seq 0 n))).
  exists r, (fun z => nadd N (nsum N (map (fun a => nmul N (wf z a) (mget N r a 0)) (seq 0 n))) (g z)),
    (fun z => nsub N (ndiv N (nadd N (q z) (q z)) (nofZ N 2)) (nsum N (map (fun a => nmul N (wf z a) (kx z a)) (seq 0 n)))).
  intros pts. rewrite V; cbn [rbind assert_]; rewrite K; cbn [rbind]. destruct (G pts) as (p & -> & Cp & Sp & Vp). cbn [rbind].
  destruct (HK pts) as (M & -> & SM & VM). cbn [rbind]. destruct (HQ pts) as (Q & -> & SQ & VQ). cbn [rbind]. rewrite EC. cbn [rbind]. rewrite Cp. cbn [Nat.eqb negb].
  change (nrows (mkmat pts d)) with (List.length pts). set (l := List.length pts) in *.
  eexists _, _. split; [reflexivity|].
  set (w := mdot N l n n (mtr N n l M) B).
  set (S0 := mmap N (fun c => ndiv N c (nofZ N 2)) (madd N Q (mtr N l l Q))).
  assert (SS : shp l l (madd N Q (mtr N l l Q))) by (apply shp_madd; [exact SQ|apply shp_mtr]).
  assert (SS0 : shp l l S0) by (apply shp_mmap; exact SS).
  split; [apply shp_madd; [apply shp_mdot|exact Sp]|]. split; [apply shp_msub; [exact SS0|apply shp_mdot]|].
  intros j Hj.
  assert (Vw : forall a, (a < n)%nat -> mget N w j a = wf (nth j pts []) a).
  { intros a Ha. unfold w. rewrite mget_mdot by assumption. unfold wf. f_equal. apply map_ext_in. intros b Hb. apply in_seq in Hb.
    f_equal. rewrite mget_mtr by lia. unfold kx. apply VM; [unfold n in *; lia|exact Hj]. }
  split.
  - rewrite (@mget_madd N l 1) by (try assumption; try lia; apply shp_mdot). f_equal; [|now apply Vp].
    rewrite mget_mdot by lia. f_equal. apply map_ext_in. intros a Ha. apply in_seq in Ha. now rewrite Vw by lia.
  - rewrite (@mget_msub l l) by (try assumption; apply shp_mdot). f_equal.
    + unfold S0. rewrite (@mget_mmap N l l) by assumption. f_equal. rewrite (@mget_madd N l l) by (try assumption; apply shp_mtr).
      rewrite mget_mtr by assumption. now rewrite VQ.
    + rewrite mget_mdot by assumption. f_equal. apply map_ext_in. intros a Ha. apply in_seq in Ha. rewrite Vw by lia. f_equal.
      unfold kx. apply VM; [unfold n in *; lia|exact Hj].
Qed.

Lemma seq_points {A} (F : nat -> A) (G : list N -> A) pts : (forall j, (j < List.length pts)%nat -> F j = G (nth j pts [])) ->
  map F (seq 0 (List.length pts)) = map G pts.
Proof.
  revert F. induction pts as [|p pts IH]; intros F H; [reflexivity|]. cbn [List.length seq map]. f_equal; [apply (H 0%nat); cbn; lia|].
  rewrite <- seq_shift, map_map. apply IH. intros j Hj. apply (H (S j)). cbn. lia.
Qed.
Lemma column_points (fm : list N -> N) mu pts : shp (List.length pts) 1 mu ->
  (forall j, (j < List.length pts)%nat -> mget N mu j 0 = fm (nth j pts [])) -> mu = map (fun p => [fm p]) pts.
Proof.
  intros S H. apply (@mx_ext N (List.length pts) 1); [exact S| |].
  - split; [apply map_length|]. intros r Hr. apply in_map_iff in Hr as [x [<- _]]. reflexivity.
  - intros i j Hi Hj. assert (j = 0%nat) as -> by lia. rewrite H by exact Hi. unfold mget. now rewrite (@nth_map_in _ _ _ _ []) by exact Hi.
Qed.
Lemma squeeze_points (f : list N -> N) pts : squeeze1 N (map (fun p => [f p]) pts) = Ok (map f pts).
Proof. unfold squeeze1. induction pts as [|p pts IH]; [reflexivity|]. cbn [map mapM rbind]. now rewrite IH. Qed.

Section Posteriors.
Context (num_dim : nat) (pm : prior N) (name : string) (X : mat N) (Y : list N) (d : nat) (C B : list (list N)) (h : dict N).
Hypothesis RW : row_by_row pm.
Definition post_points (f : mat N -> res (list N * list N)) : Prop :=
  (exists e, forall pts, f (mkmat pts d) = Raise e) \/
  (exists fm fs, forall pts, f (mkmat pts d) = Ok (map fm pts, map fs pts)).
Lemma shapes_points : exists b, forall pts, shapes_ok N num_dim X Y (mkmat pts d) C B = b.
Proof. exists (shapes_ok N num_dim X Y (mkmat [] d) C B). intros pts. reflexivity. Qed.
Lemma gp_posteriors_points : post_points (fun Xs => gp_posteriors nexp num_dim pm name X Y Xs C B h).
Proof.
  unfold post_points, gp_posteriors, predict_with_cov. destruct shapes_points as [b Eb].
  destruct b; [|left; eexists; intros pts; rewrite Eb; reflexivity].
  destruct (@posterior_points name X (column_of N Y) d C B h pm RW) as [(e & E) | (r & fm & fv & E)].
  - left. exists e. intros pts. rewrite Eb. cbn [assert_ rbind]. now rewrite E.
  - right. exists fm, (fun p => nsqrt N (clamp0 N (fv p))). intros pts. rewrite Eb. cbn [assert_ rbind].
    destruct (E pts) as (mu & S & -> & Sm & SS & V). cbn [rbind alen].
    rewrite (column_points Sm (fun j Hj => proj1 (V j Hj))). rewrite squeeze_points. cbn [rbind].
    unfold deviations, mdiag. rewrite map_map. change (nrows (mkmat pts d)) with (List.length pts).
    rewrite (@seq_points _ _ (fun p => [nsqrt N (clamp0 N (fv p))])); [|intros j Hj; now rewrite (proj2 (V j Hj))].
    rewrite (squeeze_points (fun p => nsqrt N (clamp0 N (fv p)))). reflexivity.
Qed.
Lemma tp_posteriors_points : post_points (fun Xs => tp_posteriors nexp num_dim pm name X Y Xs C B h).
Proof.
  unfold post_points, tp_posteriors, tp_predict_with_cov. destruct shapes_points as [b Eb].
  destruct b; [|left; eexists; intros pts; rewrite Eb; reflexivity].
  destruct (@posterior_points name X (column_of N Y) d C B h pm RW) as [(e & E) | (r & fm & fv & E)].
  - left. exists e. intros pts. rewrite Eb. cbn [assert_ rbind]. now rewrite E.
  - destruct (dfloat h "dof") as [nu|e] eqn:Ed.
    2: { left. exists e. intros pts. rewrite Eb. cbn [assert_ rbind]. destruct (E pts) as (mu & S & -> & _). cbn [rbind]. reflexivity. }
    cbn [alen].
    set (factor := ndiv N (nsub N (nadd N nu (mget N (mdot N 1 (nrows X) 1 (mdot N 1 (nrows X) (nrows X) (mtr N (nrows X) 1 r) B) r) 0 0)) (nofZ N 2))
      (nsub N (nadd N nu (nofnat N (nrows X))) (nofZ N 2))).
    right. exists fm, (fun p => nsqrt N (clamp0 N (nmul N factor (fv p)))). intros pts. rewrite Eb. cbn [assert_ rbind].
    destruct (E pts) as (mu & S & -> & Sm & SS & V). cbn [rbind]. fold factor.
    rewrite (column_points Sm (fun j Hj => proj1 (V j Hj))). rewrite squeeze_points. cbn [rbind].
    unfold deviations, mdiag. rewrite map_map. change (nrows (mkmat pts d)) with (List.length pts).
    rewrite (@seq_points _ _ (fun p => [nsqrt N (clamp0 N (nmul N factor (fv p)))])).
    2: { intros j Hj. rewrite (@mget_mmap N (List.length pts) (List.length pts)) by assumption. now rewrite (proj2 (V j Hj)). }
    rewrite (squeeze_points (fun p => nsqrt N (clamp0 N (nmul N factor (fv p))))). reflexivity.
Qed.
End Posteriors.

Context (cdf pdf lg : N -> N).
Lemma batch_ok pts d : pts <> [] -> Forall (fun p => List.length p = d) pts -> batch N pts = Ok (mkmat pts d).
Proof.
  destruct pts as [|p pts]; [congruence|]. intros _ F. unfold batch, np_array_rows.
  inversion F; subst. replace (forallb _ _) with true; [reflexivity|]. symmetry. apply forallb_forall. intros y Hy.
  apply Nat.eqb_eq. rewrite Forall_forall in F. now apply F.
Qed.
Lemma batch_inv pts Xs : batch N pts = Ok Xs -> pts <> [] /\ mrows Xs = pts /\ Forall (fun p => List.length p = mcols Xs) pts.
Proof.
  destruct pts as [|p pts]; [discriminate|]. unfold batch, np_array_rows. destruct (forallb _ _) eqn:E; [|discriminate].
  intros H. injection H as <-. split; [discriminate|]. split; [reflexivity|]. apply Forall_forall. intros y Hy.
  rewrite forallb_forall in E. now apply Nat.eqb_eq, E.
Qed.
Lemma map_pointwise (F : N -> N -> N) (fm fs : list N -> N) pts v : pointwise F (map fm pts) (map fs pts) v -> v = map (fun p => F (fm p) (fs p)) pts.
Proof.
  intros (L & H). apply nth_error_ext. intros i.
  destruct (nth_error pts i) as [p|] eqn:E.
  - rewrite (H i (fm p) (fs p)) by (now apply map_nth_error). symmetry. now apply (map_nth_error (fun p => F (fm p) (fs p))).
  - assert (A : nth_error v i = None) by (apply nth_error_None; apply nth_error_None in E; rewrite L, map_length; exact E).
    rewrite A. symmetry. apply nth_error_None. rewrite map_length. now apply nth_error_None.
Qed.

Lemma map_pointwise' (F : N -> N -> N) (fm fs : N * N -> N) pts v : pointwise F (map fm pts) (map fs pts) v -> v = map (fun p => F (fm p) (fs p)) pts.
Proof.
  intros (L & H). apply nth_error_ext. intros i.
  destruct (nth_error pts i) as [p|] eqn:E.
  - rewrite (H i (fm p) (fs p)) by (now apply map_nth_error). symmetry. now apply (map_nth_error (fun p => F (fm p) (fs p))).
  - assert (A : nth_error v i = None) by (apply nth_error_None; apply nth_error_None in E; rewrite L, map_length; exact E).
    rewrite A. symmetry. apply nth_error_None. rewrite map_length. now apply nth_error_None.
Qed.

Section Acqs.
Context (num_dim : nat) (str_acq : string) (X : mat N) (Y : list N) (C B : list (list N)) (h : dict N).
Context (post : mat N -> list N -> mat N -> list (list N) -> list (list N) -> dict N -> res (list N * list N)).
Hypothesis P : forall d, post_points d (fun Xs => post X Y Xs C B h).
Lemma acquisitions_points : by_point N num_dim (acquisitions cdf pdf lg num_dim str_acq post X Y C B h).
Proof.
  unfold by_point, acquisitions.
  assert (BAD : forall pts, ~ (pts <> [] /\ Forall (fun p => List.length p = num_dim) pts) ->
    exists e, (do Xs <- batch N pts; assert (shapes_ok N num_dim X Y Xs C B); do noise <- noise_of h;
      do f <- choose_fun_acquisition N cdf pdf lg str_acq noise; do p <- post X Y Xs C B h; let (mu, sd) := p in f mu sd Y) = Raise e).
  { intros pts NB. destruct (batch N pts) as [Xs|e] eqn:E; [|eexists; reflexivity]. apply batch_inv in E as (E1 & E2 & E3). cbn [rbind].
    unfold shapes_ok. destruct (Nat.eqb (mcols Xs) (mcols X) && Nat.eqb (mcols X) num_dim) eqn:Q.
    - apply andb_prop in Q as [Q1 Q2]. apply Nat.eqb_eq in Q1, Q2. exfalso. apply NB. split; [exact E1|]. rewrite <- Q2, <- Q1. exact E3.
    - rewrite andb_false_r. eexists. reflexivity. }
  assert (ALL : (exists e, forall pts, pts <> [] -> Forall (fun p => List.length p = num_dim) pts ->
      (do Xs <- batch N pts; assert (shapes_ok N num_dim X Y Xs C B); do noise <- noise_of h;
      do f <- choose_fun_acquisition N cdf pdf lg str_acq noise; do p <- post X Y Xs C B h; let (mu, sd) := p in f mu sd Y) = Raise e) \/
    (exists G, forall pts, pts <> [] -> Forall (fun p => List.length p = num_dim) pts ->
      (do Xs <- batch N pts; assert (shapes_ok N num_dim X Y Xs C B); do noise <- noise_of h;
      do f <- choose_fun_acquisition N cdf pdf lg str_acq noise; do p <- post X Y Xs C B h; let (mu, sd) := p in f mu sd Y) = Ok (map G pts))).
  { destruct (shapes_points num_dim X Y num_dim C B) as [b Eb]. destruct b.
    2: { left. exists AssertionError. intros pts H1 H2. rewrite (batch_ok H1 H2). cbn [rbind]. now rewrite Eb. }
    destruct (noise_of h) as [noise|e] eqn:En.
    2: { left. exists e. intros pts H1 H2. rewrite (batch_ok H1 H2). cbn [rbind]. now rewrite Eb. }
    destruct (choose_fun_acquisition N cdf pdf lg str_acq noise) as [f|e] eqn:Ef.
    2: { left. exists e. intros pts H1 H2. rewrite (batch_ok H1 H2). cbn [rbind]. rewrite Eb. cbn [assert_ rbind]. now rewrite Ef. }
    destruct (P num_dim) as [(e & E) | (fm & fs & E)].
    { left. exists e. intros pts H1 H2. rewrite (batch_ok H1 H2). cbn [rbind]. rewrite Eb. cbn [assert_ rbind]. rewrite Ef. cbn [rbind]. now rewrite E. }
    destruct (acq_pointwise Y Ef) as [(F & HF) | (_ & HR)].
    - right. exists (fun p => F (fm p) (fs p)). intros pts H1 H2. rewrite (batch_ok H1 H2). cbn [rbind]. rewrite Eb. cbn [assert_ rbind]. rewrite Ef. cbn [rbind]. rewrite E. cbn [rbind].
      destruct (HF (map fm pts) (map fs pts)) as (v & -> & PW); [now rewrite !map_length|]. f_equal. now apply map_pointwise.
    - left. exists ValueError. intros pts H1 H2. rewrite (batch_ok H1 H2). cbn [rbind]. rewrite Eb. cbn [assert_ rbind]. rewrite Ef. cbn [rbind]. rewrite E. cbn [rbind].
      apply HR. now rewrite !map_length. }
  assert (DEC : forall pts : list (list N), (pts <> [] /\ Forall (fun p => List.length p = num_dim) pts) \/ ~ (pts <> [] /\ Forall (fun p => List.length p = num_dim) pts)).
  { intros pts. destruct pts as [|p pts]; [right; intuition congruence|].
    destruct (Forall_dec (fun p : list N => List.length p = num_dim) (fun p => Nat.eq_dec (List.length p) num_dim) (p :: pts)); [left; split; [discriminate|assumption]|right; tauto]. }
  destruct ALL as [(e & ALL) | (G & ALL)].
  - left. intros pts. destruct (DEC pts) as [[D1 D2] | D]; [exists e; now apply ALL|now apply BAD].
  - right. exists G. split; [exact ALL|exact BAD].
Qed.
End Acqs.

Theorem gp_acquisitions_points num_dim pm str_acq name X Y C B h : row_by_row pm ->
  by_point N num_dim (gp_acquisitions nexp cdf pdf lg num_dim pm str_acq name X Y C B h).
Proof. intros RW. apply acquisitions_points. intros d. now apply gp_posteriors_points. Qed.
Theorem tp_acquisitions_points num_dim pm str_acq name X Y C B h : row_by_row pm ->
  by_point N num_dim (tp_acquisitions nexp cdf pdf lg num_dim pm str_acq name X Y C B h).
Proof. intros RW. apply acquisitions_points. intros d. now apply tp_posteriors_points. Qed.

Lemma by_point_each d (g : list (list N) -> res (list N)) : by_point N d g -> each_point N d g.
Proof.
  intros [A | (G & A & B)] pts l.
  - split; [intros H; destruct (A pts) as [e E]; congruence|]. intros (NE & _ & F). destruct pts as [|p pts]; [congruence|].
    inversion F; subst. destruct (A [p]) as [e E]. congruence.
  - assert (DEC : (pts <> [] /\ Forall (fun p => List.length p = d) pts) \/ ~ (pts <> [] /\ Forall (fun p => List.length p = d) pts)).
    { destruct pts as [|p pts]; [right; intuition congruence|].
      destruct (Forall_dec (fun p : list N => List.length p = d) (fun p => Nat.eq_dec (List.length p) d) (p :: pts)); [left; split; [discriminate|assumption]|right; tauto]. }
    split.
    + intros H. destruct DEC as [[D1 D2] | D]; [|destruct (B pts D); congruence]. split; [exact D1|]. split; [exact D2|].
      rewrite (A pts D1 D2) in H. injection H as <-. clear D1. induction D2 as [|p pts Hp D2 IH]; cbn [map]; constructor; [|exact IH].
      rewrite A; [reflexivity|discriminate|repeat constructor; exact Hp].
    + intros (D1 & D2 & F). rewrite (A pts D1 D2). f_equal. clear D1 DEC. induction F as [|p v pts l Hp F IH]; [reflexivity|].
      inversion D2; subst. cbn [map]. rewrite IH by assumption. f_equal. rewrite A in Hp; [injection Hp; congruence|discriminate|repeat constructor; assumption].
Qed.

Lemma unit_predict_iff (trees : list (tree N)) pts l : unit_predict_by_trees N pts trees = Ok l <-> Forall2 (fun p v => predict_by_trees_one N p trees = Ok v) pts l.
Proof. unfold unit_predict_by_trees. apply mapM_ok_iff. Qed.
Lemma predict_iff (trees : list (tree N)) schedule pts l : completes schedule ->
  predict_by_trees N pts trees (schedule ((List.length pts + 99) / 100)%nat) = Ok l <-> Forall2 (fun p v => predict_by_trees_one N p trees = Ok v) pts l.
Proof.
  intros CS. rewrite <- unit_predict_iff. destruct (Nat.le_gt_cases (List.length pts) 100) as [L | L].
  - unfold predict_by_trees. now rewrite (proj2 (Nat.leb_le _ _) L).
  - pose proof (predict_sequential trees L (CS _)) as H. destruct (unit_predict_by_trees N pts trees) as [o|e].
    + rewrite H. reflexivity.
    + destruct H as (e' & ->). split; discriminate.
Qed.
Theorem rf_acquisitions_points num_dim str_acq schedule X Y trees : completes schedule ->
  each_point N num_dim (rf_acquisitions cdf pdf lg num_dim str_acq schedule X Y trees).
Proof.
  intros CS pts l. set (g := rf_acquisitions cdf pdf lg num_dim str_acq schedule X Y trees).
  assert (SPLIT : forall pts, pts <> [] -> Forall (fun p => List.length p = num_dim) pts ->
    g pts = (assert (Nat.eqb (nrows X) (List.length Y)); assert (Nat.eqb num_dim (mcols X) && Nat.eqb (mcols X) num_dim);
      do f <- choose_fun_acquisition N cdf pdf lg str_acq (Some (GP_NOISE N));
      do p <- predict_by_trees N pts trees (schedule ((List.length pts + 99) / 100)%nat); f (map fst p) (map snd p) Y)).
  { intros q H1 H2. unfold g, rf_acquisitions. rewrite (batch_ok H1 H2). cbn [rbind mcols]. destruct (Nat.eqb (nrows X) (List.length Y)); [|reflexivity]. cbn [assert_ rbind].
    destruct (Nat.eqb num_dim (mcols X) && Nat.eqb (mcols X) num_dim); [|reflexivity]. cbn [assert_ rbind].
    destruct (choose_fun_acquisition N cdf pdf lg str_acq (Some (GP_NOISE N))) as [f|]; [|reflexivity]. cbn [rbind].
    unfold rf_posteriors. cbn [mcols mrows]. rewrite Nat.eqb_refl. cbn [assert_ rbind]. change (nrows (mkmat q num_dim)) with (List.length q).
    now destruct (predict_by_trees N q trees _). }
  assert (BAD : forall pts, g pts = Ok l -> pts <> [] /\ Forall (fun p => List.length p = num_dim) pts).
  { intros q. unfold g, rf_acquisitions. destruct (batch N q) as [Xs|e] eqn:E; [|discriminate]. apply batch_inv in E as (E1 & E2 & E3). cbn [rbind].
    destruct (Nat.eqb (nrows X) (List.length Y)); [|discriminate]. cbn [assert_ rbind].
    destruct (Nat.eqb (mcols Xs) (mcols X) && Nat.eqb (mcols X) num_dim) eqn:Q; [|discriminate]. intros _.
    apply andb_prop in Q as [Q1 Q2]. apply Nat.eqb_eq in Q1, Q2. split; [exact E1|]. rewrite <- Q2, <- Q1. exact E3. }
  enough (EQ : pts <> [] -> Forall (fun p => List.length p = num_dim) pts -> (g pts = Ok l <-> Forall2 (fun p v => g [p] = Ok [v]) pts l)).
  { split; [intros H; destruct (BAD pts H) as [D1 D2]; split; [exact D1|split; [exact D2|now apply EQ]]|]. intros (D1 & D2 & F). now apply EQ. }
  clear BAD. intros D1 D2. rewrite (SPLIT pts D1 D2).
  assert (S1 : Forall2 (fun p v => g [p] = Ok [v]) pts l <-> Forall2 (fun p v => (assert (Nat.eqb (nrows X) (List.length Y)); assert (Nat.eqb num_dim (mcols X) && Nat.eqb (mcols X) num_dim);
      do f <- choose_fun_acquisition N cdf pdf lg str_acq (Some (GP_NOISE N));
      do q <- predict_by_trees N [p] trees (schedule ((List.length [p] + 99) / 100)%nat); f (map fst q) (map snd q) Y) = Ok [v]) pts l).
  { clear D1. split; intros F; induction F as [|p v q m Hp F IH]; constructor; inversion D2; subst; try (apply IH; assumption);
      [rewrite SPLIT in Hp|rewrite SPLIT]; try exact Hp; try discriminate; repeat constructor. }
  rewrite S1. clear S1.
  assert (FALSE1 : forall e, Raise e = Ok l <-> Forall2 (fun p v => @Raise (list N) e = Ok [v]) pts l).
  { intros e. split; [discriminate|]. intros F. destruct pts; [congruence|]. inversion F. congruence. }
  destruct (Nat.eqb (nrows X) (List.length Y)); [|apply FALSE1]. cbn [assert_ rbind].
  destruct (Nat.eqb num_dim (mcols X) && Nat.eqb (mcols X) num_dim); [|apply FALSE1]. cbn [assert_ rbind].
  destruct (choose_fun_acquisition N cdf pdf lg str_acq (Some (GP_NOISE N))) as [f|e] eqn:Ef; [|apply FALSE1]. cbn [rbind].
  assert (ONE : forall p q, predict_by_trees N [p] trees (schedule ((List.length [p] + 99) / 100)%nat) = Ok q <-> exists v, q = [v] /\ predict_by_trees_one N p trees = Ok v).
  { intros p q. rewrite (predict_iff trees [p] q CS). split.
    - intros F. inversion F as [|? v ? ? Hv F']; subst. inversion F'; subst. eauto.
    - intros (v & -> & Hv). repeat constructor. exact Hv. }
  destruct (acq_pointwise Y Ef) as [(F & HF) | (_ & HR)].
  - split.
    + destruct (predict_by_trees N pts trees _) as [o|e] eqn:E; [|discriminate]. cbn [rbind]. intros H. apply (predict_iff trees pts o CS) in E.
      destruct (HF (map fst o) (map snd o)) as (v & Hv & PW); [now rewrite !map_length|]. rewrite Hv in H. injection H as <-.
      assert (PW' : v = map (fun q => F (fst q) (snd q)) o) by (now apply map_pointwise'). subst v. clear Hv PW D1 D2 FALSE1 SPLIT.
      induction E as [|p q pts o Hp E IH]; cbn [map]; [constructor|]. constructor; [|exact IH].
      destruct (predict_by_trees N [p] trees _) as [o'|e'] eqn:E'.
      * apply ONE in E' as (v & -> & Hv). rewrite Hp in Hv. injection Hv as <-. cbn [rbind map].
        destruct (HF [fst q] [snd q] eq_refl) as (w & -> & PW). f_equal. apply (@map_pointwise' F fst snd [q]) in PW. exact PW.
      * exfalso. assert (X1 : predict_by_trees N [p] trees (schedule ((List.length [p] + 99) / 100)%nat) = Ok [q]) by (apply ONE; eauto). congruence.
    + intros H. assert (E : exists o, Forall2 (fun p v => predict_by_trees_one N p trees = Ok v) pts o /\ l = map (fun q => F (fst q) (snd q)) o).
      { clear D1 D2 FALSE1 SPLIT. induction H as [|p v pts l Hp H IH]; [exists []; split; [constructor|reflexivity]|]. destruct IH as (o & A & ->).
        destruct (predict_by_trees N [p] trees _) as [o'|e'] eqn:E'; [|discriminate]. apply ONE in E' as (q & -> & Hq). cbn [rbind map] in Hp.
        destruct (HF [fst q] [snd q] eq_refl) as (w & E & PW). rewrite E in Hp. injection Hp as ->. apply (@map_pointwise' F fst snd [q]) in PW. cbn [map] in PW. injection PW as ->.
        exists (q :: o). split; [constructor; assumption|reflexivity]. }
      destruct E as (o & A & ->). apply (predict_iff trees pts o CS) in A. rewrite A. cbn [rbind].
      destruct (HF (map fst o) (map snd o)) as (v & -> & PW); [now rewrite !map_length|]. f_equal. now apply map_pointwise'.
  - split.
    + destruct (predict_by_trees N pts trees _) as [o|e]; [|discriminate]. cbn [rbind]. rewrite HR by (now rewrite !map_length). discriminate.
    + intros H. destruct pts as [|p pts]; [congruence|]. inversion H as [|? ? ? ? Hp]; subst. destruct (predict_by_trees N [p] trees _) as [o|e]; [|discriminate].
      cbn [rbind] in Hp. rewrite HR in Hp by (now rewrite !map_length). discriminate.
Qed.
End Points.
