(** C85-C86: runs can be stopped and resumed; what an object did before does not influence what it does next. *)
From Verif Require Import Base Num NumLaws View Monad UtilsModel HypsModel CovModel GPModel HypOptModel WrapperModel WrapperSpec
  BOModel BOObject ResumeSpec ResumeObject.
From Coq Require Import List ZArith Bool String Arith.
Import ListNotations.
Local Open Scope string_scope.

Section Statements.
Context (N : Num) (nexp nlog cdf pdf : N -> N) (npi : N).
Notation mx := (list (list N)).
Context (inv chol : mx -> res mx) (cho_solve : mx -> mx -> res mx) (slogdet : mx -> N * N) (ngamma ndigamma : N -> N).
Context (W : Type).
Context (get_samples : string -> Z -> option Z -> W -> W * res (list (list N))).
Context (lbfgsb : (list N -> res N) -> list N -> list (N * N) -> W -> W * res (list N)).
Context (direct : (list N -> res N) -> list (N * N) -> W -> W * res (list N)).
Context (cma : (list N -> res N) -> list N -> list (N * N) -> W -> W * res (list N)).
Context (time_ : W -> W * N).
Context (minimize : W -> minimizer N) (after : mat N -> list N -> string -> W -> W).
Context (prior_mu : prior N).
Context (choice : nat -> nat -> bool -> W -> W * res (list nat)) (uniform : N -> N -> W -> W * res N) (trunc : N -> option Z)
  (schedule : nat -> list nat).
Context (fun_target : list N -> W -> W * res N).
Notation all_initial := (object_all_initial N nexp nlog cdf pdf npi inv chol cho_solve slogdet ngamma ndigamma W get_samples lbfgsb direct cma time_ minimize after prior_mu choice uniform trunc schedule fun_target).
Notation initial_inputs := (object_initial_inputs N nexp nlog cdf pdf npi inv chol cho_solve slogdet ngamma ndigamma W get_samples lbfgsb direct cma time_ minimize after prior_mu choice uniform trunc schedule fun_target).
Notation optimize := (object_optimize N nexp nlog cdf pdf npi inv chol cho_solve slogdet ngamma ndigamma W get_samples lbfgsb direct cma time_ minimize after prior_mu choice uniform trunc schedule fun_target).
Notation iterations k ob := (set_num_iter N (Z.of_nat k) ob).
(** give the data collected so far to an object whose attribute num_iter is m *)
Definition go_on (m : nat) (X : mat N) (Y : list N) (x : bo_object N * W) : (bo_object N * W) * list (event N) * res (run_out N) :=
  all_initial X Y (iterations m (fst x), snd x).

Theorem C85_resume_same_object same ob w :
  clock_is_private N W same get_samples lbfgsb direct cma time_ minimize after choice uniform fun_target ->
  (forall n m X Y, resumes (same_object same) (all_initial X Y (iterations n ob, w)) (go_on m) (all_initial X Y (iterations (n + m) ob, w))) /\
  (forall n m X, resumes (same_object same) (initial_inputs X (iterations n ob, w)) (go_on m) (initial_inputs X (iterations (n + m) ob, w))) /\
  (forall n m num_init seed, resumes (same_object same) (optimize num_init seed (iterations n ob, w)) (go_on m) (optimize num_init seed (iterations (n + m) ob, w))).
Proof. intros CP. exact (resume_same_object nexp nlog cdf pdf npi inv chol cho_solve slogdet ngamma ndigamma prior_mu trunc schedule CP ob w). Qed.

Theorem C85_resume_equal_object same ob w :
  clock_is_private N W same get_samples lbfgsb direct cma time_ minimize after choice uniform fun_target -> memoryless ob ->
  (forall n m X Y, resumes (equal_object same) (all_initial X Y (iterations n ob, w)) (go_on m) (all_initial X Y (iterations (n + m) ob, w))) /\
  (forall n m X, resumes (equal_object same) (initial_inputs X (iterations n ob, w)) (go_on m) (initial_inputs X (iterations (n + m) ob, w))) /\
  (forall n m num_init seed, resumes (equal_object same) (optimize num_init seed (iterations n ob, w)) (go_on m) (optimize num_init seed (iterations (n + m) ob, w))).
Proof. intros CP HM. exact (resume_equal_object nexp nlog cdf pdf npi inv chol cho_solve slogdet ngamma ndigamma prior_mu trunc schedule CP w HM). Qed.

Theorem C86_used_objects_behave_as_fresh ob ob' w : same_settings ob ob' -> memoryless ob ->
  (forall X Y, same_use (all_initial X Y (ob, w)) (all_initial X Y (ob', w))) /\
  (forall X, same_use (initial_inputs X (ob, w)) (initial_inputs X (ob', w))) /\
  (forall num_init seed, same_use (optimize num_init seed (ob, w)) (optimize num_init seed (ob', w))).
Proof.
  intros HS HM. split; [|split]; intros.
  - exact (reuse_all nexp nlog cdf pdf npi inv chol cho_solve slogdet ngamma ndigamma get_samples lbfgsb direct cma time_ minimize after prior_mu choice uniform trunc schedule fun_target HS HM X Y w).
  - exact (reuse_inputs nexp nlog cdf pdf npi inv chol cho_solve slogdet ngamma ndigamma get_samples lbfgsb direct cma time_ minimize after prior_mu choice uniform trunc schedule fun_target HS HM X w).
  - exact (reuse_optimize nexp nlog cdf pdf npi inv chol cho_solve slogdet ngamma ndigamma get_samples lbfgsb direct cma time_ minimize after prior_mu choice uniform trunc schedule fun_target HS HM num_init seed w).
Qed.
Theorem C86_settings_never_change ob w :
  (forall X Y, same_settings ob (fst (fst (fst (all_initial X Y (ob, w)))))) /\
  (forall X, same_settings ob (fst (fst (fst (initial_inputs X (ob, w)))))) /\
  (forall num_init seed, same_settings ob (fst (fst (fst (optimize num_init seed (ob, w)))))).
Proof. exact (settings_kept nexp nlog cdf pdf npi inv chol cho_solve slogdet ngamma ndigamma get_samples lbfgsb direct cma time_ minimize after prior_mu choice uniform trunc schedule fun_target ob w). Qed.
End Statements.
Print Assumptions C85_resume_same_object.
Print Assumptions C85_resume_equal_object.
Print Assumptions C86_used_objects_behave_as_fresh.
Print Assumptions C86_settings_never_change.

(** ** A concrete situation (floating point)

    One input in [0, 1]; the world counts readings of the clock and fits; the candidates are 0, 1/4, 1/2, 3/4, 1; the fit returns
    lengthscale 1/5 twice and lengthscale 10 from then on; the target is constant.  exp is replaced by (1 + x/1024)^1024 and inv is
    Gaussian elimination. *)
Section Case.
Notation F := NumF.
Notation q := (nlit NumF).
Definition rs_exp (x : F) : F := Nat.iter 10 (fun y => nmul F y y) (nadd F (q 1 1) (ndiv F x (q 1024 1))).
Fixpoint rs_elim (k n : nat) (rows : list (list F)) : list (list F) :=
  match n with
  | O => rows
  | S n' =>
      let p := nth k rows [] in
      let p' := map (fun x => ndiv F x (nth k p (q 0 1))) p in
      rs_elim (S k) n' (map (fun ir => if Nat.eqb (fst ir) k then p' else
        let c := nth k (snd ir) (q 0 1) in map (fun xy => nsub F (fst xy) (nmul F c (snd xy))) (combine (snd ir) p')) (combine (seq 0 (List.length rows)) rows))
  end.
Definition rs_inv (m : list (list F)) : res (list (list F)) :=
  let n := List.length m in
  Ok (map (skipn n) (rs_elim 0 n (map (fun ir => snd ir ++ map (fun j => q (if Nat.eqb j (fst ir) then 1 else 0) 1) (seq 0 n))%list (combine (seq 0 n) m)))).
Definition rs_W : Type := nat * nat.
Definition rs_samples (m : string) (n : Z) (s : option Z) (w : rs_W) : rs_W * res (list (list F)) :=
  (w, Ok [[q 0 1]; [q 1 4]; [q 1 2]; [q 3 4]; [q 1 1]]).
Definition rs_lbfgsb (f : list F -> res F) (x : list F) (r : list (F * F)) (w : rs_W) : rs_W * res (list F) := (w, Ok x).
Definition rs_direct (f : list F -> res F) (r : list (F * F)) (w : rs_W) : rs_W * res (list F) := (w, Raise ValueError).
Definition rs_time (w : rs_W) : rs_W * F := ((S (fst w), snd w), nofZ F (Z.of_nat (fst w))).
Definition rs_minimize (w : rs_W) : minimizer F := fun _ _ _ _ _ => Ok (if Nat.ltb (snd w) 2 then [q 1 1; q 1 5] else [q 1 1; q 10 1]).
Definition rs_after (X : mat F) (Y : list F) (m : string) (w : rs_W) : rs_W := (fst w, S (snd w)).
Definition rs_choice (n k : nat) (b : bool) (w : rs_W) : rs_W * res (list nat) := (w, Raise ValueError).
Definition rs_uniform (a b : F) (w : rs_W) : rs_W * res F := (w, Raise ValueError).
Definition rs_target (x : list F) (w : rs_W) : rs_W * res F := (w, Ok (q (-5) 2)).
Definition rs_same (v w : rs_W) : Prop := snd v = snd w.
(** the hypothesis of C85 is met *)
Example clock_is_private_case : clock_is_private F rs_W rs_same rs_samples rs_lbfgsb rs_direct rs_lbfgsb rs_time rs_minimize rs_after rs_choice rs_uniform rs_target.
Proof.
  constructor; unfold unaware, rs_same.
  - reflexivity.
  - intros v w H. symmetry. exact H.
  - intros u v w H K. exact (eq_trans H K).
  - reflexivity.
  - intros m n s w1 w2 H. exact (conj H eq_refl).
  - intros f x r w1 w2 H. exact (conj H eq_refl).
  - intros f r w1 w2 H. exact (conj H eq_refl).
  - intros f x r w1 w2 H. exact (conj H eq_refl).
  - intros w1 w2 H. unfold rs_minimize. rewrite H. reflexivity.
  - intros X Y m w1 w2 H. exact (f_equal S H).
  - intros n k b w1 w2 H. exact (conj H eq_refl).
  - intros a b w1 w2 H. exact (conj H eq_refl).
  - intros x w1 w2 H. exact (conj H eq_refl).
Qed.

Definition rs_args (mlm : string) : bo_args F :=
  mkargs F [(q 0 1, q 1 1)] 2 "gp" "se" "pure_exploit" false true "sobol" "halton" "BFGS" "L-BFGS-B" "L-BFGS-B" mlm "ml" 10.
Definition rs_all := object_all_initial F rs_exp (fun x => x) (fun x => x) (fun x => x) (q 3 1) rs_inv (fun m => Ok m) (fun _ b => Ok b) (fun _ => (q 1 1, q 0 1))
  (fun x => x) (fun x => x) rs_W rs_samples rs_lbfgsb rs_direct rs_lbfgsb rs_time rs_minimize rs_after None rs_choice rs_uniform (fun _ => None) (fun _ => []) rs_target.
Definition rs_X : mat F := mkmat [[q 1 5]; [q 3 5]] 1.
Definition rs_Y : list F := [q (-1) 1; q (-3) 2].
Definition rs_object (mlm : string) : bo_object F :=
  GPObject (rs_args mlm) (mkgpo F [(q 0 1, q 1 1)] "se" "pure_exploit" false true "BFGS" "L-BFGS-B" "ml") (mkgps F [] true).
Definition rs_go_on (m : nat) (X : mat F) (Y : list F) (x : bo_object F * rs_W) := rs_all X Y (set_num_iter F (Z.of_nat m) (fst x), snd x).
Definition seen (r : res (run_out F)) : res (list (list SpecFloat.spec_float)) := rmap (fun o => map (map fview) (mrows (ro_X o))) r.

(** the object is what the constructor returns *)
Example rs_object_fresh : new_object F true true (rs_args "regular") = Ok (rs_object "regular") /\ new_object F true true (rs_args "converged") = Ok (rs_object "converged").
Proof. split; reflexivity. Qed.
(** a run of three iterations, and one of two iterations continued by one more with the fresh object, propose the same inputs *)
Definition whole (mlm : string) := snd (rs_all rs_X rs_Y (set_num_iter F 3 (rs_object mlm), (0, 0)%nat)).
Definition in_two_parts (mlm : string) :=
  match rs_all rs_X rs_Y (set_num_iter F 2 (rs_object mlm), (0, 0)%nat) with
  | ((_, w1), _, Ok r1) => snd (rs_go_on 1 (ro_X r1) (ro_Y r1) (rs_object mlm, w1))
  | (_, _, Raise e) => Raise e
  end.
Example resume_case : seen (whole "regular") = Ok (map (map fview) [[q 1 5]; [q 3 5]; [q 1 2]; [q 1 4]; [q 1 1]]) /\ seen (in_two_parts "regular") = seen (whole "regular").
Proof. vm_compute. auto. Qed.
Example memoryless_case : memoryless (rs_object "regular") /\ memoryless (rs_object "combined").
Proof. split; intros H; inversion H. Qed.

(** *** in mode "converged" a fresh object does not continue what the old one started *)
Definition equal_settings (x y : bo_object F * rs_W) : Prop :=
  same_settings (set_num_iter F 0 (fst x)) (set_num_iter F 0 (fst y)) /\ snd x = snd y.
Lemma two_parts_differ : seen (in_two_parts "converged") <> seen (whole "converged").
Proof. vm_compute. discriminate. Qed.
Lemma seen_same r1 r2 : same_history r1 r2 -> seen r1 = seen r2.
Proof. destruct r1, r2; cbn; try contradiction; [|congruence]. intros (-> & _). reflexivity. Qed.
Lemma resumes_seen (R : bo_object F * rs_W -> bo_object F * rs_W -> Prop) first second fin ob : resumes R first second fin ->
  R (fst (fst first)) (ob, snd (fst (fst first))) ->
  seen (match first with ((_, w1), _, Ok r1) => snd (second (ro_X r1) (ro_Y r1) (ob, w1)) | (_, _, Raise e) => Raise e end) = seen (snd fin).
Proof.
  destruct first as [[[ob1 w1] t1] [r1|e]], fin as [[x3 t3] r3]; unfold resumes; cbn [fst snd].
  - intros H HR. specialize (H _ HR). destruct (second (ro_X r1) (ro_Y r1) (ob, w1)) as [[x2 t2] r2]. destruct H as (_ & _ & H). now apply seen_same.
  - intros (_ & _ & ->) _. reflexivity.
Qed.
Lemma equal_of k ob (x : bo_object F * rs_W) : same_settings (set_num_iter F k ob) (fst x) -> equal_settings x (ob, snd x).
Proof. intros H. split; [|reflexivity]. cbn [fst]. apply settings_sym in H. apply (set_settings 0) in H. rewrite set_set in H. exact H. Qed.
Lemma rs_kept ob w X Y : same_settings ob (fst (fst (fst (rs_all X Y (ob, w))))).
Proof.
  unfold rs_all. exact (proj1 (settings_kept rs_exp (fun x => x) (fun x => x) (fun x => x) (q 3 1) rs_inv (fun m => Ok m) (fun _ b => Ok b) (fun _ => (q 1 1, q 0 1))
    (fun x => x) (fun x => x) rs_samples rs_lbfgsb rs_direct rs_lbfgsb rs_time rs_minimize rs_after None rs_choice rs_uniform (fun _ => None) (fun _ => []) rs_target ob w) X Y).
Qed.
Theorem C85_resume_converged_mode_refuted : exists ob w X Y n m,
  new_object F true true (rs_args "converged") = Ok ob /\
  ~ resumes equal_settings (rs_all X Y (set_num_iter F (Z.of_nat n) ob, w)) (rs_go_on m) (rs_all X Y (set_num_iter F (Z.of_nat (n + m)) ob, w)).
Proof.
  exists (rs_object "converged"), (0, 0)%nat, rs_X, rs_Y, 2%nat, 1%nat. split; [reflexivity|]. intros H. apply two_parts_differ. unfold in_two_parts, whole.
  change (Z.of_nat 2) with 2%Z in H. change (Z.of_nat (2 + 1)) with 3%Z in H.
  apply (resumes_seen _ _ _ _ (rs_object "converged") H). apply (equal_of 2).
  exact (rs_kept (set_num_iter F 2 (rs_object "converged")) (0, 0)%nat rs_X rs_Y).
Qed.

(** *** in mode "converged" an object remembers its earlier use *)
Definition used : bo_object F * rs_W := fst (fst (rs_all rs_X rs_Y (rs_object "converged", (0, 0)%nat))).
Lemma uses_differ : seen (snd (rs_all rs_X rs_Y (fst used, snd used))) <> seen (snd (rs_all rs_X rs_Y (rs_object "converged", snd used))).
Proof. vm_compute. discriminate. Qed.
Lemma same_use_seen (x y : (bo_object F * rs_W) * list (event F) * res (run_out F)) : same_use x y -> seen (snd x) = seen (snd y).
Proof. destruct x as [[[o1 w1] t1] r1], y as [[[o2 w2] t2] r2]. cbn. now intros (_ & _ & -> & _). Qed.
Theorem C86_converged_mode_refuted : exists fresh used w X Y,
  new_object F true true (rs_args "converged") = Ok fresh /\ same_settings fresh used /\ ~ same_use (rs_all X Y (used, w)) (rs_all X Y (fresh, w)).
Proof.
  exists (rs_object "converged"), (fst used), (snd used), rs_X, rs_Y. split; [reflexivity|]. split.
  - exact (rs_kept (rs_object "converged") (0, 0)%nat rs_X rs_Y).
  - intros H. apply uses_differ. exact (same_use_seen _ _ H).
Qed.
End Case.
Print Assumptions C85_resume_converged_mode_refuted.
Print Assumptions C86_converged_mode_refuted.
