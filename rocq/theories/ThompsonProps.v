(** Properties C68, C69 (Thompson sampling), C71 (sampled functions), C78 and C79 (prediction with optimised hyperparameters). *)
From Verif Require Import Base Lists Num NumLaws Monad UtilsModel HypsModel CovModel KernelSpec CovSpec Contracts GPModel GPSpec HypOptModel HypOptProofs WrapperModel BOModel
  View SamplingModel SamplingSpec SamplingProps ThompsonModel ThompsonSpec ThompsonProofs ThompsonProofs2 PredictOpt ThompsonReal.
From Coq Require Import List ZArith Bool String Reals Lra Lia.
From Flocq Require Import Core IEEE754.BinarySingleNaN.
Import ListNotations.
Local Open Scope string_scope.
Unset Asymmetric Patterns.
Set Bullet Behavior "Strict Subproofs".

(** ** C68 *)
(** whatever function is sampled, the first candidate is returned: a candidate, and a minimiser if the sampled
    function happens to be smallest there *)
Theorem C68_partial : forall (N : Num) W G (mvn : list N -> list (list N) -> W -> W * res G) rvs lae nexp nlog npi inv chol cho_solve slogdet
    minimize da ca get_samples range X Y norm method num w w1 t p,
  ts_iteration mvn rvs lae nexp nlog npi inv chol cho_solve slogdet minimize da ca get_samples range X Y norm method num w = (w1, t, Ok p) ->
  exists pts v w0, get_samples range method num None w = (w0, Ok pts) /\ cands_of t = [pts] /\ drawn t = [v] /\ ts_calls t = [] /\
    (draw_contract mvn rvs -> List.length v = List.length pts) /\ (2 <= List.length pts)%nat /\
    hd_error pts = Some p /\ In p pts /\ (smallest_at v 0 -> minimises pts v p).
Proof.
  intros N W G mvn rvs lae nexp nlog npi inv chol cho_solve slogdet minimize da ca get_samples range X Y norm method num w w1 t p H.
  apply iteration_first in H as (pts & v & w0 & -> & E1 & E2 & E3 & E4). exists pts, v, w0.
  split; [exact E4|]. split; [reflexivity|]. split; [reflexivity|]. split; [reflexivity|]. split; [exact E3|]. split; [exact E2|]. split; [exact E1|].
  destruct pts as [|p0 pts]; [discriminate E1|]. injection E1 as ->. split; [now left|]. intros M. exists 0%nat. auto.
Qed.
Print Assumptions C68_partial.

(** exact reals: for every data set, sampler, optimiser and sampled function the first of at least two candidates is
    returned, so the returned point is not the minimiser whenever the sampled function is not smallest there *)
Theorem C68_ignores_sample : forall W G (mvn : list NumR -> list (list NumR) -> W -> W * res G) rvs lae inv chol cho_solve slogdet minimize da ca get_samples
    range X Y norm Yn method num w w1 p0 pts v,
  inv_contract inv -> returns_point minimize ->
  mat_wf X -> nrows X = List.length Y -> List.length range = mcols X -> Forall (fun b => fst b <= snd b)%R range ->
  (if norm : bool then normalize_min_max NumR Y else Ok Y) = Ok Yn -> List.length Yn = List.length Y ->
  get_samples range method num None w = (w1, Ok (p0 :: pts)) -> Forall (fun p => List.length p = mcols X) (p0 :: pts) ->
  (forall mu Sg w, List.length mu = S (List.length pts) -> exists w' g, mvn mu Sg w = (w', Ok g) /\ forall w2, exists w3, rvs g w2 = (w3, Ok v)) ->
  (1 <= List.length pts)%nat -> v <> [] ->
  exists w', ts_iteration mvn rvs lae exp ln PI inv chol cho_solve slogdet minimize da ca get_samples range X Y norm method num w
    = (w', [TsCands (p0 :: pts); TsDraw v], Ok p0).
Proof.
  intros W G mvn rvs lae inv chol cho_solve slogdet minimize da ca get_samples range X Y norm Yn method num w w1 p0 pts v HI HM WF LY LR OKR EN LN EG FP HV L2 NE.
  eapply iteration_returns; try eassumption. apply forallb_forall. intros b I. rewrite Forall_forall in OKR. apply Rle_bool_true. auto.
Qed.
Print Assumptions C68_ignores_sample.

(** a concrete case: candidates 0 and 1/2, sampled values 2 and 1 *)
Definition ex_mvn (mu : list NumR) (S : list (list NumR)) (w : unit) : unit * res nat := (w, Ok (List.length mu)).
Definition ex_rvs (g : nat) (w : unit) : unit * res (list NumR) := (w, Ok (map (fun i => INR (g - i)) (seq 0 g))).
Definition ex_min : minimizer NumR := fun _ start _ _ _ => Ok start.
Definition ex_cand (range : list (NumR * NumR)) (m : string) (num : Z) (s : option Z) (w : unit) : unit * res (list (list NumR)) :=
  (w, Ok [[0%R]; [(/ 2)%R]]).
Example ex_draw_contract : draw_contract ex_mvn ex_rvs.
Proof. intros mu S w w1 g H w2 w3 v K. injection H as _ <-. injection K as _ <-. now rewrite map_length, seq_length. Qed.
Example ex_min_ok : returns_point ex_min.
Proof. intros f s m b j. exists s. auto. Qed.
Theorem C68_refuted : exists W G (mvn : list NumR -> list (list NumR) -> W -> W * res G) rvs inv minimize get_samples range X Y w w' p pts v,
  draw_contract mvn rvs /\ inv_contract inv /\ returns_point minimize /\
  ts_iteration mvn rvs true exp ln PI inv some_chol (fun _ b => Ok b) (fun _ => (1%R, 0%R)) minimize true true get_samples range X Y false "uniform" 2 w
    = (w', [TsCands pts; TsDraw v], Ok p) /\
  List.length v = List.length pts /\ NoDup pts /\ ~ minimises pts v p.
Proof.
  exists unit, nat, ex_mvn, ex_rvs, some_inv, ex_min, ex_cand, [(0%R, 1%R)], (mkmat [[0%R]; [1%R]] 1), [0%R; 1%R], tt.
  destruct (@C68_ignores_sample unit nat ex_mvn ex_rvs true some_inv some_chol (fun _ b => Ok b) (fun _ => (1%R, 0%R)) ex_min true true ex_cand
     [(0%R, 1%R)] (mkmat [[0%R]; [1%R]] 1) [0%R; 1%R] false [0%R; 1%R] "uniform" 2 tt tt [0%R] [[(/ 2)%R]] [INR 2; INR 1]) as (w' & E).
  - exact some_inv_ok.
  - exact ex_min_ok.
  - intros r [<-|[<-|[]]]; reflexivity.
  - reflexivity.
  - reflexivity.
  - constructor; [cbn; lra|constructor].
  - reflexivity.
  - reflexivity.
  - reflexivity.
  - repeat constructor.
  - intros mu Sg w L. exists w, (List.length mu). split; [reflexivity|]. intros w2. exists w2. unfold ex_rvs. rewrite L. reflexivity.
  - cbn; lia.
  - discriminate.
  - exists w', [0%R], [[0%R]; [(/ 2)%R]], [INR 2; INR 1].
    split; [exact ex_draw_contract|]. split; [exact some_inv_ok|]. split; [exact ex_min_ok|]. split; [exact E|]. split; [reflexivity|].
    split.
    { constructor; [|constructor; [intros []|constructor]]. intros [Q|[]]. injection Q. lra. }
    intros (i & Ei & a & Ea & Hm). destruct i as [|[|i]].
    + injection Ea as <-. specialize (Hm (INR 1) (or_intror (or_introl eq_refl))). cbn [nle NumR] in Hm. revert Hm. rewrite Rle_bool_false by (cbn; lra). discriminate.
    + injection Ei. lra.
    + destruct i; discriminate Ei.
Qed.
Print Assumptions C68_refuted.

(** ** C69 *)
Theorem C69 : forall (N : Num) W G (mvn : list N -> list (list N) -> W -> W * res G) rvs lae nexp nlog npi inv chol cho_solve slogdet
    minimize da ca get_samples get_initials fun_target range num_init num_iter norm method num w w1 t X Y,
  thompson_sampling_gp mvn rvs lae nexp nlog npi inv chol cho_solve slogdet minimize da ca get_samples get_initials fun_target
    range num_init num_iter norm method num w = (w1, t, Ok (X, Y)) ->
  exists init later w0, get_initials range method num_init None w = (w0, Ok init) /\ inits_of t = [init] /\
    mrows X = (init ++ later)%list /\ List.length later = Z.to_nat num_iter /\ List.length Y = nrows X /\
    ts_calls t = ts_evaluated (combine (mrows X) Y) /\
    Forall2 (fun pts x => In x pts) (cands_of t) later /\
    Forall (fun pts => exists w2 w3, get_samples range method num None w2 = (w3, Ok pts)) (cands_of t).
Proof.
  intros N W G mvn rvs lae nexp nlog npi inv chol cho_solve slogdet minimize da ca get_samples get_initials fun_target range num_init num_iter norm method num w w1 t X Y H.
  apply run_ok in H as (init & later & w0 & A1 & A2 & A3 & A4 & A5 & A6 & A7 & A8). exists init, later, w0.
  repeat (split; [assumption|]). split; [|exact A8]. clear - A7. unfold first_of in A7. induction A7 as [|pts x c l (H & _) _ IH]; constructor; [|exact IH].
  destruct pts; [discriminate H|]. injection H as ->. now left.
Qed.
Print Assumptions C69.

(** an exception: the target was called successfully, then at most once more, and that call raised it *)
Theorem C69_raise : forall (N : Num) W G (mvn : list N -> list (list N) -> W -> W * res G) rvs lae nexp nlog npi inv chol cho_solve slogdet
    minimize da ca get_samples get_initials fun_target range num_init num_iter norm method num w w1 t e,
  thompson_sampling_gp mvn rvs lae nexp nlog npi inv chol cho_solve slogdet minimize da ca get_samples get_initials fun_target
    range num_init num_iter norm method num w = (w1, t, Raise e) -> calls_until t e.
Proof. intros. eapply run_raise. eassumption. Qed.
Print Assumptions C69_raise.

(** doubles, with the samplers of BOwGP: number of rows, and all of them in the box *)
Theorem C69_rows : forall W G G2 (mvn : list NumF -> list (list NumF) -> W -> W * res G) rvs lae nexp nlog npi inv chol cho_solve slogdet
    minimize da ca (mkstate : option Z -> W -> W * res G2) unit_draw gauss_draw qmc fun_target range num_init num_iter norm method num w w1 t X Y,
  unit_contract unit_draw -> gauss_contract gauss_draw -> qmc_contract qmc ->
  Forall good_range range -> (method = "gaussian" -> Forall sum_finite range) -> (0 <= num_init)%Z -> (0 <= num_iter)%Z ->
  thompson_sampling_gp mvn rvs lae nexp nlog npi inv chol cho_solve slogdet minimize da ca
    (get_samples NumF mkstate unit_draw gauss_draw qmc) (get_initials NumF mkstate unit_draw gauss_draw qmc) fun_target
    range num_init num_iter norm method num w = (w1, t, Ok (X, Y)) ->
  Z.of_nat (nrows X) = (num_init + num_iter)%Z /\ List.length Y = nrows X /\ Forall (in_box range) (mrows X).
Proof.
  intros W G G2 mvn rvs lae nexp nlog npi inv chol cho_solve slogdet minimize da ca mkstate unit_draw gauss_draw qmc fun_target range
    num_init num_iter norm method num w w1 t X Y U GC Q F SF P1 P2 H.
  apply C69 in H as (init & later & w0 & A1 & A2 & A3 & A4 & A5 & A6 & A7 & A8).
  destruct (C56_initials _ _ _ _ _ _ _ _ _ _ _ _ _ U GC Q F SF A1) as (L1 & B1).
  assert (NG : method <> "grid") by (intros ->; discriminate A1).
  unfold nrows in *. rewrite A3, app_length, L1, A4. split; [lia|]. rewrite A3, app_length in A5. split; [lia|].
  apply Forall_app. split; [exact B1|]. clear - A7 A8 U GC Q F SF NG. induction A7 as [|pts x c l I _ IH]; [constructor|].
  inversion A8 as [|? ? (w2 & w3 & E) A9]; subst. constructor; [|auto].
  destruct (C56_samples _ _ _ _ _ _ _ _ _ _ _ _ _ U GC Q F SF NG E) as (_ & B). rewrite Forall_forall in B. auto.
Qed.
Print Assumptions C69_rows.

(** a run on doubles that meets the hypotheses: two initial points, two iterations *)
Definition exf_mvn (mu : list NumF) (S : list (list NumF)) (w : nat) : nat * res nat := (Datatypes.S w, Ok (List.length mu)).
Definition exf_rvs (g : nat) (w : nat) : nat * res (list NumF) := (w, Ok (map (fun i => fofZ (Z.of_nat i)) (seq 0 g))).
Definition exf_mk (s : option Z) (w : nat) : nat * res nat := (Datatypes.S w, Ok w).
Definition exf_unit (g : nat) : nat * NumF := (S g, fme (Z.of_nat g) (-4)).
Definition exf_qmc (k : qmc_kind) (d : nat) (s : option Z) (n : Z) (w : nat) : nat * res (list (list NumF)) := (w, Raise OutsideModel).
Definition exf_target (x : list NumF) (w : nat) : nat * res NumF := (w, Ok (nth 0 x (fofZ 0))).
Definition exf_run norm := thompson_sampling_gp exf_mvn exf_rvs true (fun x => x) (fun x => x) (fofZ 3) (fun m => Ok m) (fun m => Ok m) (fun _ b => Ok b)
  (fun _ => (fofZ 1, fofZ 0)) (fun _ s _ _ _ => Ok s) true true (get_samples NumF exf_mk exf_unit (ex_gauss (fofZ 1)) exf_qmc)
  (get_initials NumF exf_mk exf_unit (ex_gauss (fofZ 1)) exf_qmc) exf_target [(fofZ 0, fofZ 1); (fofZ 2, fofZ 4)] 2 2 norm "uniform" 3 1%nat.
Definition ev_kind (ev : tsev NumF) : nat := match ev with TsInit _ => 0 | TsCands _ => 1 | TsDraw _ => 2 | TsTarget _ _ => 3 end%nat.
Example C69_example : forall norm,
  match exf_run norm with
  | (_, t, Ok (X, Y)) => (nrows X, mcols X, List.length Y, map ev_kind t) = (4, 2, 4, [0; 3; 3; 1; 2; 3; 1; 2; 3])%nat
  | _ => False
  end.
Proof. intros [|]; vm_compute; reflexivity. Qed.
(** ... and one in which the second call of the target raises *)
Example C69_raise_example :
  match thompson_sampling_gp exf_mvn exf_rvs true (fun x => x) (fun x => x) (fofZ 3) (fun m => Ok m) (fun m => Ok m) (fun _ b => Ok b)
    (fun _ => (fofZ 1, fofZ 0)) (fun _ s _ _ _ => Ok s) true true (get_samples NumF exf_mk exf_unit (ex_gauss (fofZ 1)) exf_qmc)
    (get_initials NumF exf_mk exf_unit (ex_gauss (fofZ 1)) exf_qmc) (fun x w => if Nat.eqb w 3 then (4, Raise (TargetError 7)) else (S w, Ok (fofZ 0)))%nat
    [(fofZ 0, fofZ 1)] 2 2 true "uniform" 3 1%nat with
  | (_, t, Raise e) => e = TargetError 7 /\ map ev_kind t = [0; 3; 3]%nat
  | _ => False
  end.
Proof. vm_compute. auto. Qed.

(** ** C71 *)
Theorem C71_partial : forall (N : Num) W G (mvn : list N -> list (list N) -> W -> W * res G) rvs mu Sigma num w w1 t a,
  draw_contract mvn rvs -> (2 <= List.length mu)%nat -> (1 <= num)%Z ->
  sample_functions N mvn rvs mu Sigma num w = (w1, t, Ok a) ->
  exists m, a = V2 m /\ Z.of_nat (nrows m) = num /\ mcols m = List.length mu /\ Forall (fun r => List.length r = List.length mu) (mrows m) /\
    drawn t = mrows m.
Proof.
  intros N W G mvn rvs mu Sigma num w w1 t a D Hn P H. apply sample_functions_ok in H as (r & -> & -> & L & F).
  rewrite stack_two by lia. exists (mkmat r (List.length mu)). split; [reflexivity|]. unfold nrows. cbn [mrows mcols]. split; [lia|]. split; [reflexivity|].
  split; [exact (F D)|]. clear. induction r as [|v r IH]; [reflexivity|]. cbn. f_equal. exact IH.
Qed.
Print Assumptions C71_partial.
(** Student-t: entries are mu[j] + draw[i][j] / sqrt(x[i]) *)
Theorem C71_tp_partial : forall (N : Num) W G (mvn : list N -> list (list N) -> W -> W * res G) rvs chisquare nu mu Sigma num w w1 t s,
  draw_contract mvn rvs -> chi_contract chisquare -> (2 <= List.length mu)%nat -> (1 <= num)%Z ->
  tp_sample_functions N mvn rvs chisquare nu mu Sigma num w = (w1, t, Ok s) ->
  exists x r, drawn t = r /\ List.length r = Z.to_nat num /\ List.length x = Z.to_nat num /\
    Z.of_nat (nrows s) = num /\ mcols s = List.length mu /\ Forall (fun row => List.length row = List.length mu) (mrows s) /\
    forall i j xi ri row m v, nth_error x i = Some xi -> nth_error r i = Some ri -> nth_error (mrows s) i = Some row ->
      nth_error mu j = Some m -> nth_error ri j = Some v -> nth_error row j = Some (nadd N m (ndiv N v (nsqrt N xi))).
Proof.
  intros N W G mvn rvs chisquare nu mu Sigma num w w1 t s D C Hn P H.
  apply tp_rows in H; [|assumption..]. destruct H as (x & r & -> & A1 & A2 & A3 & A4 & A5 & A6). exists x, r. split.
  { clear. induction r as [|v r IH]; [reflexivity|]. cbn. f_equal. exact IH. }
  split; [exact A1|]. split; [exact A2|]. split; [lia|]. auto.
Qed.
Print Assumptions C71_tp_partial.
(** they fail only when numpy or scipy does *)
Theorem C71_raise : forall (N : Num) W G (mvn : list N -> list (list N) -> W -> W * res G) rvs mu Sigma num w w1 t e,
  List.length Sigma = List.length mu -> Forall (fun r => List.length r = List.length mu) Sigma ->
  sample_functions N mvn rvs mu Sigma num w = (w1, t, Raise e) ->
  (exists w w', mvn mu Sigma w = (w', Raise e)) \/ (exists rv w w', rvs rv w = (w', Raise e)).
Proof.
  intros N W G mvn rvs mu Sigma num w w1 t e L F H. apply gp_sample_raise in H; [exact H|].
  apply andb_true_iff. split; [now apply Nat.eqb_eq|]. apply forallb_forall. intros r I. rewrite Forall_forall in F. now apply Nat.eqb_eq, F.
Qed.
Print Assumptions C71_raise.
Theorem C71_tp_raise : forall (N : Num) W G (mvn : list N -> list (list N) -> W -> W * res G) rvs chisquare nu mu Sigma num w w1 t e,
  chi_contract chisquare -> (2 <= List.length mu)%nat -> (1 <= num)%Z ->
  List.length Sigma = List.length mu -> Forall (fun r => List.length r = List.length mu) Sigma ->
  tp_sample_functions N mvn rvs chisquare nu mu Sigma num w = (w1, t, Raise e) ->
  (exists w w', chisquare nu num w = (w', Raise e)) \/ (exists w w', mvn (repeat (nofZ N 0) (List.length mu)) Sigma w = (w', Raise e)) \/
  (exists rv w w', rvs rv w = (w', Raise e)).
Proof.
  intros N W G mvn rvs chisquare nu mu Sigma num w w1 t e C Hn P L F H.
  eapply tp_sample_raise; try eassumption.
  apply andb_true_iff. split; [now apply Nat.eqb_eq|]. apply forallb_forall. intros r I. rewrite Forall_forall in F. now apply Nat.eqb_eq, F.
Qed.
Print Assumptions C71_tp_raise.
(** Findings.  One input point: the Gaussian samples come back one-dimensional, and the Student-t sampler never
    returns two or more.  No sample: shape (0,). *)
Theorem C71_one_point : forall (N : Num) W G (mvn : list N -> list (list N) -> W -> W * res G) rvs mu Sigma num w w1 t a,
  List.length mu = 1%nat -> (1 <= num)%Z -> sample_functions N mvn rvs mu Sigma num w = (w1, t, Ok a) -> shape_of a = [Z.to_nat num].
Proof.
  intros N W G mvn rvs mu Sigma num w w1 t a L1 P H. apply sample_functions_ok in H as (r & -> & -> & L & F). rewrite L1.
  destruct (@stack_one N r) as (l & -> & Ll); [lia|]. cbn. now rewrite Ll, L.
Qed.
Print Assumptions C71_one_point.
Theorem C71_no_sample : forall (N : Num) W G (mvn : list N -> list (list N) -> W -> W * res G) rvs mu Sigma w w1 t a,
  sample_functions N mvn rvs mu Sigma 0 w = (w1, t, Ok a) -> shape_of a = [0%nat].
Proof.
  intros N W G mvn rvs mu Sigma w w1 t a H. apply sample_functions_ok in H as (r & -> & -> & L & F). destruct r; [reflexivity|discriminate L].
Qed.
Print Assumptions C71_no_sample.
Theorem C71_tp_one_point : forall (N : Num) W G (mvn : list N -> list (list N) -> W -> W * res G) rvs chisquare nu m0 Sigma num w w1 t s,
  chi_contract chisquare -> (2 <= num)%Z -> tp_sample_functions N mvn rvs chisquare nu [m0] Sigma num w <> (w1, t, Ok s).
Proof. intros. apply tp_one; assumption. Qed.
Print Assumptions C71_tp_one_point.
Definition exf_chi (nu : NumF) (num : Z) (w : nat) : nat * res (list NumF) := (w, if (num <? 0)%Z then Raise ValueError else Ok (map (fun i => fofZ (Z.of_nat i + 1)) (seq 0 (Z.to_nat num)))).
Definition nd_shape {W E} (x : W * E * res (nd NumF)) : option (list nat) := match x with (_, _, Ok a) => Some (shape_of a) | _ => None end.
Definition mat_shape {W E} (x : W * E * res (mat NumF)) : res (nat * nat) := match x with (_, _, Ok a) => Ok (nrows a, mcols a) | (_, _, Raise e) => Raise e end.
Example C71_example :
  nd_shape (sample_functions NumF exf_mvn exf_rvs [fofZ 1; fofZ 2] [[fofZ 1; fofZ 0]; [fofZ 0; fofZ 1]] 3 0%nat) = Some [3; 2]%nat /\
  nd_shape (sample_functions NumF exf_mvn exf_rvs [fofZ 1] [[fofZ 1]] 3 0%nat) = Some [3]%nat /\
  mat_shape (tp_sample_functions NumF exf_mvn exf_rvs exf_chi (fofZ 4) [fofZ 1; fofZ 2] [[fofZ 1; fofZ 0]; [fofZ 0; fofZ 1]] 3 0%nat) = Ok (3, 2)%nat /\
  mat_shape (tp_sample_functions NumF exf_mvn exf_rvs exf_chi (fofZ 4) [fofZ 1] [[fofZ 1]] 3 0%nat) = Raise AssertionError.
Proof. vm_compute. auto. Qed.

Lemma exf_draw_contract : draw_contract exf_mvn exf_rvs.
Proof. intros mu S w w1 g H w2 w3 v K. injection H as _ <-. injection K as _ <-. now rewrite map_length, seq_length. Qed.
Example exf_chi_contract : chi_contract exf_chi.
Proof.
  intros nu num w w1 x H. unfold exf_chi in H. apply pair_equal_spec in H as (_ & H). destruct (Z.ltb_spec num 0); [discriminate H|].
  injection H as <-. rewrite map_length, seq_length. lia.
Qed.
Theorem C71_refuted : exists (mu : list NumF) Sigma num a w t, draw_contract exf_mvn exf_rvs /\ (1 <= List.length mu)%nat /\ (1 <= num)%Z /\
  sample_functions NumF exf_mvn exf_rvs mu Sigma num 0%nat = (w, t, Ok a) /\ shape_of a <> [Z.to_nat num; List.length mu].
Proof.
  exists [fofZ 1], [[fofZ 1]], 3%Z. eexists. eexists. eexists. split; [exact exf_draw_contract|]. split; [cbn; lia|]. split; [lia|].
  split; [reflexivity|]. cbn. discriminate.
Qed.
Print Assumptions C71_refuted.
Theorem C71_tp_refuted : exists nu (mu : list NumF) Sigma num w t, draw_contract exf_mvn exf_rvs /\ (1 <= List.length mu)%nat /\ (1 <= num)%Z /\
  chi_contract exf_chi /\
  tp_sample_functions NumF exf_mvn exf_rvs exf_chi nu mu Sigma num 0%nat = (w, t, Raise AssertionError).
Proof.
  exists (fofZ 4), [fofZ 1], [[fofZ 1]], 3%Z. eexists. eexists. split; [exact exf_draw_contract|]. split; [cbn; lia|]. split; [lia|].
  split; [exact exf_chi_contract|reflexivity].
Qed.
Print Assumptions C71_tp_refuted.

(** ** C78, C79 *)
Theorem C78_gp : forall (N : Num) nexp nlog npi inv chol cho_solve slogdet minimize (X : arr N) Y Xs pm name opt fx,
  validate_common_args X Y (Some Xs) = Ok tt -> check_str_cov name (shape X) (Some (shape Xs)) = Ok tt ->
  In opt ALLOWED_OPTIMIZER_METHOD_GP ->
  predict_with_optimized_hyps nexp nlog npi inv chol cho_solve slogdet minimize X Y Xs name opt pm fx =
  match get_optimized_kernel nexp nlog npi inv chol cho_solve slogdet minimize X Y pm name opt "ml" true fx with
  | Ok (_, _, h) => predict_with_hyps nexp inv X Y Xs h name pm
  | Raise e => Raise e
  end.
Proof. intros. now apply gp_predict_opt. Qed.
Print Assumptions C78_gp.
Theorem C78_tp : forall (N : Num) nexp nlog npi inv slogdet ngamma ndigamma minimize (X : arr N) Y Xs pm name opt fx,
  validate_common_args X Y (Some Xs) = Ok tt -> check_str_cov name (shape X) (Some (shape Xs)) = Ok tt ->
  In opt ALLOWED_OPTIMIZER_METHOD_TP ->
  tp_predict_with_optimized_hyps nexp nlog npi inv slogdet ngamma ndigamma minimize X Y Xs name opt pm fx =
  match tp_get_optimized_kernel nexp nlog npi inv slogdet ngamma ndigamma minimize X Y pm name opt true fx with
  | Ok (_, _, h) => tp_predict_with_hyps nexp inv X Y Xs h name pm
  | Raise e => Raise e
  end.
Proof. intros. now apply tp_predict_opt. Qed.
Print Assumptions C78_tp.
(** exact reals: prediction returns whenever the optimiser does *)
Theorem C79_partial : forall name X Xs d Y opt fx inv chol cho_solve slogdet minimize,
  inv_contract inv -> returns_point minimize -> fits name X d -> fits name Xs d -> column (alen X) Y -> In opt ALLOWED_OPTIMIZER_METHOD_GP ->
  exists mu sd S, @predict_with_optimized_hyps NumR exp ln PI inv chol cho_solve slogdet minimize X Y Xs name opt None fx = Ok (mu, sd, S) /\
    is_mx (alen Xs) 1 mu /\ is_mx (alen Xs) (alen Xs) S.
Proof. intros. eapply predict_opt_real; eassumption. Qed.
Print Assumptions C79_partial.
(** Finding: BFGS, Nelder-Mead and SLSQP-Bounded are accepted by the check in tp.py and never work *)
Theorem C79_refuted : exists opt, In opt ALLOWED_OPTIMIZER_METHOD_GP /\
  forall (N : Num) nexp nlog npi inv slogdet ngamma ndigamma minimize (X : arr N) Y Xs pm name fx r,
  tp_predict_with_optimized_hyps nexp nlog npi inv slogdet ngamma ndigamma minimize X Y Xs name opt pm fx <> Ok r.
Proof.
  exists "BFGS". split; [now left|]. intros. apply tp_predict_fails. intros [Q|[Q|[]]]; discriminate Q.
Qed.
Print Assumptions C79_refuted.
Example C78_example : let X := A2 NumF (mkmat [[fofZ 0]; [fofZ 1]] 1) in let Y := mkmat [[fofZ 0]; [fofZ 1]] 1 in
  validate_common_args X Y (Some X) = Ok tt /\ check_str_cov "matern52" (shape X) (Some (shape X)) = Ok tt /\
  is_ok (@get_optimized_kernel NumF (fun x => x) (fun x => x) (fofZ 3) (fun m => Ok m) (fun m => Ok m) (fun _ b => Ok b) (fun _ => (fofZ 1, fofZ 0))
     (fun _ s _ _ _ => Ok s) X Y None "matern52" "BFGS" "ml" true true) = true /\
  is_ok (@tp_get_optimized_kernel NumF (fun x => x) (fun x => x) (fofZ 3) (fun m => Ok m) (fun _ => (fofZ 1, fofZ 0)) (fun x => x) (fun x => x)
     (fun _ s _ _ _ => Ok s) X Y None "matern52" "SLSQP" true true) = true.
Proof. vm_compute. auto. Qed.
