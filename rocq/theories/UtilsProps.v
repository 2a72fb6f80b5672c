(** Property theorems about utils_common.py and utils_bo.py (C01-C13, C15). *)
From Verif Require Import Base Lists Num NumLaws UtilsModel UtilsSpec UtilsProofs UtilsRProofs GridProofs View.
From Coq Require Import List ZArith Bool Reals Lra Lia Arith String Floats.SpecFloat.
From Flocq Require Import Core.Raux IEEE754.BinarySingleNaN.

(** C01 *)
Theorem get_minimum_running_best :
  forall (N : Num) (O : NumOrd N) (Y : mat N) num_init out,
  mat_wf Y -> get_minimum N Y num_init = Ok out ->
  List.length (mo_minima out) = nrows Y /\
  forall i row mi, nth_error (mrows Y) i = Some row -> nth_error (mo_minima out) i = Some mi ->
    let p := slice_pos row num_init in
    List.length mi = (mcols Y - p + 1)%nat /\
    forall k v, nth_error mi k = Some v -> best_entry N (firstn (p + k) row) v.
Proof. intros N O Y num_init out WF H. exact (@get_minimum_best N O Y num_init out WF H). Qed.
Print Assumptions get_minimum_running_best.

Theorem get_minimum_never_increases :
  forall (N : Num) (O : NumOrd N) (Y : mat N) num_init out i mi k v w,
  mat_wf Y -> get_minimum N Y num_init = Ok out ->
  nth_error (mo_minima out) i = Some mi ->
  nth_error mi k = Some v -> nth_error mi (S k) = Some w -> nle N w v = true.
Proof. exact get_minimum_nonincreasing. Qed.
Print Assumptions get_minimum_never_increases.

Theorem get_minimum_accepts :
  forall (N : Num) (Y : mat N) num_init i, ninf N = Some i ->
  (is_ok (get_minimum N Y num_init) = true <-> (num_init < Z.of_nat (mcols Y))%Z /\ mrows Y <> []).
Proof. exact get_minimum_succeeds. Qed.
Print Assumptions get_minimum_accepts.

Example get_minimum_case :
  let Y : mat NumF := mkmat [[fofZ 5; fnan; fofZ 3; fofZ 4]; [fnan; finf; fofZ (-1); fofZ (-2)]] 4 in
  mat_wf Y /\
  rmap (fun out => map (map fview) (mo_minima out)) (get_minimum NumF Y 2) =
  Ok (map (map fview) [[fofZ 5; fofZ 3; fofZ 3]; [finf; fofZ (-1); fofZ (-2)]]).
Proof.
  split.
  - intros r [<-|[<-|[]]]; reflexivity.
  - vm_compute. reflexivity.
Qed.

(** C02 *)
Theorem get_minimum_statistics :
  forall (Y : mat NumR) num_init out,
  mat_wf Y -> get_minimum NumR Y num_init = Ok out ->
  let r := INR (nrows Y) in
  exists w, (forall m, In m (mo_minima out) -> List.length m = w) /\
   List.length (mo_mean out) = w /\ List.length (mo_std out) = w /\ List.length (mo_sem out) = w /\
   forall j m s e, nth_error (mo_mean out) j = Some m -> nth_error (mo_std out) j = Some s ->
     nth_error (mo_sem out) j = Some e ->
     let col := map (fun row => nth j row 0%R) (mo_minima out) in
     List.length col = nrows Y /\
     (m * r = Rsum col)%R /\
     (0 <= s)%R /\
     (s * s * (r - 1) = Rsum (map (fun x => (x - m) * (x - m)) col))%R /\
     (nrows Y = 1%nat -> s = 0%R) /\
     (s = 0%R <-> forall x y, In x col -> In y col -> x = y) /\
     (0 <= e)%R /\ (e * sqrt r = s)%R.
Proof. exact get_minimum_stats. Qed.
Print Assumptions get_minimum_statistics.

Example get_minimum_statistics_case :
  let Y : mat NumR := mkmat [[3; 1]; [2; 5]]%R 2 in
  mat_wf Y /\ is_ok (get_minimum NumR Y 1) = true.
Proof.
  split; [intros r [<-|[<-|[]]]; reflexivity|].
  unfold get_minimum. cbn -[Rlt_bool].
  change (Pos.to_nat 1) with 1%nat. cbn -[Rlt_bool nstd nmean column seq].
  rewrite Rlt_bool_true by lra. cbn -[Rlt_bool]. rewrite Rlt_bool_false by lra. reflexivity.
Qed.

(** C03 *)
Theorem get_time_mean_cumulative :
  forall (T : mat NumR) num_init (inc : bool) out,
  mat_wf T -> get_time NumR T num_init inc = Ok out ->
  let kept (row : list R) := if inc then skipn (slice_pos row num_init) row else row in
  (0 < nrows T)%nat /\
  List.length out = S (match mrows T with [] => 0 | row :: _ => List.length (kept row) end) /\
  (forall k v, nth_error out k = Some v ->
     (v * INR (nrows T) = Rsum (map (fun row => Rsum (firstn k (kept row))) (mrows T)))%R) /\
  nth_error out 0 = Some 0%R /\
  ((forall row t, In row (mrows T) -> In t row -> (0 <= t)%R) ->
    forall k v w, nth_error out k = Some v -> nth_error out (S k) = Some w -> (v <= w)%R).
Proof. exact get_time_spec. Qed.
Print Assumptions get_time_mean_cumulative.

Example get_time_case :
  exists out, get_time NumR (mkmat [[3; 1; 2]; [2; 5; 7]]%R 3) 1 true = Ok out /\ List.length out = 3%nat.
Proof. eexists. split; reflexivity. Qed.

(** C04 *)
Theorem plot_axes_same_length :
  forall (N : Num) (Y T : mat N) num_init (inc : bool) mo ti,
  mat_wf Y -> mat_wf T ->
  (0 <= num_init)%Z ->
  (if inc then mcols T = mcols Y else (Z.of_nat (mcols T) + num_init)%Z = Z.of_nat (mcols Y)) ->
  get_minimum N Y num_init = Ok mo -> get_time N T num_init inc = Ok ti ->
  List.length ti = List.length (mo_mean mo).
Proof. exact time_minimum_lengths. Qed.
Print Assumptions plot_axes_same_length.

Example plot_axes_case :
  let Y : mat NumF := mkmat [[fofZ 5; fofZ 4; fofZ 3]] 3 in
  let T : mat NumF := mkmat [[fofZ 1; fofZ 1]] 2 in
  is_ok (get_minimum NumF Y 1) = true /\ is_ok (get_time NumF T 1 false) = true /\
  (Z.of_nat (mcols T) + 1)%Z = Z.of_nat (mcols Y).
Proof. vm_compute. auto. Qed.

(** C05 *)
Theorem get_grids_cartesian :
  forall (N : Num) (ranges : list (N * N)) m rows, get_grids N ranges m = Ok rows ->
  exists idx : list (list nat),
    NoDup idx /\
    (forall t, In t idx <-> grid_index (List.length ranges) (Z.to_nat m) t) /\
    rows = map (zipapp (map (fun r => linspace_elt N (fst r) (snd r) (Z.to_nat m)) ranges)) idx /\
    List.length rows = (Z.to_nat m ^ List.length ranges)%nat /\
    (forall row, In row rows -> List.length row = List.length ranges).
Proof. exact get_grids_product. Qed.
Print Assumptions get_grids_cartesian.

Theorem grid_values_equally_spaced :
  forall (a b : R) m i, (2 <= m)%nat -> (i < m)%nat -> linspace_elt NumR a b m i = spaced a b m i.
Proof. exact linspace_elt_R. Qed.
Print Assumptions grid_values_equally_spaced.

Theorem get_grids_accepts :
  forall (N : Num) (ranges : list (N * N)) m,
  is_ok (get_grids N ranges m) = true <->
  ranges <> [] /\ (0 <= m)%Z /\ Forall (fun r => nle N (fst r) (snd r) = true) ranges.
Proof. exact get_grids_succeeds. Qed.
Print Assumptions get_grids_accepts.

Example get_grids_case :
  rmap (map (map fview)) (get_grids NumF [(fofZ 0, fofZ 2); (fofZ 10, fofZ 11)] 2) =
  Ok (map (map (fun z => fview (fofZ z))) [[0; 10]; [2; 10]; [0; 11]; [2; 11]]%Z).
Proof. vm_compute. reflexivity. Qed.

(** C06 *)
Theorem get_grids_stays_in_box :
  forall (ranges : list (R * R)) m rows,
  get_grids NumR ranges m = Ok rows -> forall row, In row rows -> in_box ranges row.
Proof. exact get_grids_in_box. Qed.
Print Assumptions get_grids_stays_in_box.

Theorem get_grids_has_corners :
  forall (ranges : list (R * R)) m rows,
  get_grids NumR ranges m = Ok rows -> (2 <= m)%Z -> forall row, corner ranges row -> In row rows.
Proof. exact get_grids_corners. Qed.
Print Assumptions get_grids_has_corners.

Example get_grids_box_case : is_ok (get_grids NumR [(0, 1); (2, 3)]%R 5) = true.
Proof. apply get_grids_succeeds. repeat split; [discriminate|lia|]. repeat constructor; apply Rle_bool_true; simpl; lra. Qed.

(** in binary64 the in-box claim fails for a box of subnormal width: 11 grid points on [0, 15 * 2^-1074] *)
Theorem get_grids_in_box_float_refuted :
  exists (lo hi : f64) rows row x,
    get_grids NumF [(lo, hi)] 11 = Ok rows /\ In row rows /\ row = [x] /\ Bltb hi x = true.
Proof.
  exists (fofZ 0), (fme 15 (-1074)).
  set (x := linspace_elt NumF (fofZ 0) (fme 15 (-1074)) 11 9).
  exists (map (fun i => [linspace_elt NumF (fofZ 0) (fme 15 (-1074)) 11 i]) (seq 0 11)), [x], x.
  split.
  - unfold get_grids. replace (forallb _ _) with true by (vm_compute; reflexivity). reflexivity.
  - split; [|split; [reflexivity|vm_compute; reflexivity]].
    apply in_map_iff. exists 9%nat. split; [reflexivity|]. apply in_seq. lia.
Qed.
Print Assumptions get_grids_in_box_float_refuted.

(** C07 *)
Theorem normalize_maps_to_0_10 :
  forall Y : list R, nonconstant Y ->
  exists Z, normalize_min_max NumR Y = Ok Z /\ List.length Z = List.length Y /\
    (forall i y z, nth_error Y i = Some y -> nth_error Z i = Some z ->
       (0 <= z <= 10)%R /\
       (z = 0%R <-> forall w, In w Y -> (y <= w)%R) /\
       (z = 10%R <-> forall w, In w Y -> (w <= y)%R)) /\
    (forall i j y y' z z', nth_error Y i = Some y -> nth_error Y j = Some y' ->
       nth_error Z i = Some z -> nth_error Z j = Some z' -> ((z < z')%R <-> (y < y')%R)) /\
    In 0%R Z /\ In 10%R Z.
Proof. exact normalize_min_max_spec. Qed.
Print Assumptions normalize_maps_to_0_10.

Theorem normalize_keeps_constant :
  forall Y : list R, Y <> [] -> ~ nonconstant Y -> normalize_min_max NumR Y = Ok Y.
Proof. exact normalize_constant. Qed.
Print Assumptions normalize_keeps_constant.

Example normalize_case : nonconstant [3; 1; 2]%R /\ ~ nonconstant [4; 4]%R.
Proof.
  split; [exists 1%R, 3%R; simpl; repeat split; auto; lra|].
  intros (a & b & [<-|[<-|[]]] & [<-|[<-|[]]] & L); lra.
Qed.

(** C08 *)
Theorem normalize_is_idempotent :
  forall Y Z : list R, nonconstant Y -> normalize_min_max NumR Y = Ok Z -> normalize_min_max NumR Z = Ok Z.
Proof. exact normalize_idempotent. Qed.
Print Assumptions normalize_is_idempotent.

Theorem normalize_affine_invariant :
  forall (Y : list R) a b, nonconstant Y -> (0 < a)%R ->
  normalize_min_max NumR (map (fun y => a * y + b)%R Y) = normalize_min_max NumR Y.
Proof. exact normalize_affine. Qed.
Print Assumptions normalize_affine_invariant.

(** C09 *)
Theorem best_by_evaluation_first_minimiser :
  forall (N : Num) (O : NumOrd N) (initials : list (list N)) f x,
  get_best_acquisition_by_evaluation N initials f = Ok x ->
  exists vs i, Forall2 (fun c v => f c = Ok v) initials vs /\ nth_error initials i = Some x /\ first_best N vs i.
Proof. exact by_evaluation_ok. Qed.
Print Assumptions best_by_evaluation_first_minimiser.

Theorem best_by_evaluation_raises_iff :
  forall (N : Num) (O : NumOrd N) (initials : list (list N)) f vs,
  Forall2 (fun c v => f c = Ok v) initials vs ->
  (get_best_acquisition_by_evaluation N initials f = Raise TypeError <->
   forall v, In v vs -> nltinf N v = false).
Proof. exact by_evaluation_raises. Qed.
Print Assumptions best_by_evaluation_raises_iff.

Example best_by_evaluation_case :
  let f (x : list NumF) : res NumF := match x with y :: _ => Ok (nmul NumF y y) | [] => Raise IndexError end in
  rmap (map fview) (get_best_acquisition_by_evaluation NumF [[fofZ 3]; [fnan]; [fofZ (-1)]; [fofZ 1]] f)
  = Ok (map fview [fofZ (-1)]).
Proof. vm_compute. reflexivity. Qed.

(** C10 *)
Theorem best_by_history_minimiser :
  forall (N : Num) (O : NumOrd N) (X : mat N) Y x y,
  get_best_acquisition_by_history N X Y = Ok (x, y) ->
  exists i, nth_error (mrows X) i = Some x /\ nth_error Y i = Some y /\
    ((forall w, In w Y -> nisnan N w = false) ->
       (forall w, In w Y -> nle N y w = true) /\
       (forall j w, (j < i)%nat -> nth_error Y j = Some w -> nle N w y = false)) /\
    ((exists w, In w Y /\ nisnan N w = true) ->
       nisnan N y = true /\ forall j w, (j < i)%nat -> nth_error Y j = Some w -> nisnan N w = false).
Proof. exact by_history_ok. Qed.
Print Assumptions best_by_history_minimiser.

Theorem best_by_history_total :
  forall (N : Num) (O : NumOrd N) (X : mat N) Y, nrows X = List.length Y -> Y <> [] ->
  exists x y, get_best_acquisition_by_history N X Y = Ok (x, y).
Proof. exact by_history_total. Qed.
Print Assumptions best_by_history_total.

Example best_by_history_case :
  rmap (fun p => map fview (fst p))
    (get_best_acquisition_by_history NumF (mkmat [[fofZ 0]; [fofZ 1]; [fofZ 2]] 1) [fofZ 5; fofZ 2; fofZ 2])
  = Ok (map fview [fofZ 1]).
Proof. vm_compute. reflexivity. Qed.

(** C11 *)
Theorem next_best_is_fresh_or_last :
  forall (N : Num) (O : NumOrd N) (points : mat N) acqs (evaluated : mat N) p,
  get_next_best_acquisition N points acqs evaluated = Ok (Some p) ->
  (exists k v, nth_error (mrows points) k = Some p /\ nth_error acqs k = Some v /\
     fresh N (mrows evaluated) p /\ nltinf N v = true /\
     (forall j q w, nth_error (mrows points) j = Some q -> nth_error acqs j = Some w ->
        fresh N (mrows evaluated) q -> nisnan N w = false -> nle N v w = true) /\
     (forall j q w, (j < k)%nat -> nth_error (mrows points) j = Some q -> nth_error acqs j = Some w ->
        fresh N (mrows evaluated) q -> nle N w v = false))
  \/ ((forall q, In q (mrows points) -> ~ fresh N (mrows evaluated) q) /\
      exists pre, mrows evaluated = pre ++ [p]).
Proof. exact next_best_fresh. Qed.
Print Assumptions next_best_is_fresh_or_last.

Example next_best_case :
  rmap (option_map (map fview))
    (get_next_best_acquisition NumF (mkmat [[fofZ 0]; [fofZ 1]; [fofZ 2]] 1) [fofZ (-9); fofZ 5; fofZ 3]
     (mkmat [[fofZ 0]] 1)) = Ok (Some (map fview [fofZ 2])).
Proof. vm_compute. reflexivity. Qed.

(** C12 *)
Theorem next_best_none_iff :
  forall (N : Num) (O : NumOrd N) (points : mat N) acqs (evaluated : mat N),
  nrows points = List.length acqs -> mcols points = mcols evaluated ->
  (get_next_best_acquisition N points acqs evaluated = Ok None <->
   (exists q, In q (mrows points) /\ fresh N (mrows evaluated) q) /\
   (forall j q w, nth_error (mrows points) j = Some q -> nth_error acqs j = Some w ->
      fresh N (mrows evaluated) q -> nltinf N w = false)).
Proof. exact next_best_none. Qed.
Print Assumptions next_best_none_iff.

Example next_best_none_case :
  get_next_best_acquisition NumF (mkmat [[fofZ 0]; [fofZ 1]] 1) [fofZ 1; fnan] (mkmat [[fofZ 0]] 1) = Ok None.
Proof. vm_compute. reflexivity. Qed.

(** C13 *)
Theorem check_points_in_bounds_exact :
  forall (N : Num) (points : mat N) (bounds : list (N * N)),
  mat_wf points ->
  (check_points_in_bounds N points bounds = Ok points <->
   mcols points = List.length bounds /\
   forall p, In p (mrows points) ->
     Forall2 (fun b x => nle N (fst b) x = true /\ nle N x (snd b) = true) bounds p)
  /\ (check_points_in_bounds N points bounds <> Ok points ->
      check_points_in_bounds N points bounds = Raise AssertionError).
Proof. exact check_points_in_bounds_iff. Qed.
Print Assumptions check_points_in_bounds_exact.

Example check_points_case :
  is_ok (check_points_in_bounds NumF (mkmat [[fofZ 0; fofZ 1]] 2) [(fofZ 0, fofZ 1); (fofZ 0, fofZ 1)]) = true /\
  check_points_in_bounds NumF (mkmat [[fofZ 0; fnan]] 2) [(fofZ 0, fofZ 1); (fofZ 0, fofZ 1)] = Raise AssertionError.
Proof. vm_compute. auto. Qed.

(** C15 *)
Theorem optimizer_method_fallback :
  forall da ca m dim,
  match check_optimizer_method_bo da ca m dim with
  | Ok r =>
      In m ["L-BFGS-B"; "DIRECT"; "CMA-ES"; "random_search"]%string /\
      (r = "DIRECT"%string -> da = true) /\ (r = "CMA-ES"%string -> ca = true /\ dim <> 1%Z) /\
      (r = m \/ r = "L-BFGS-B"%string) /\
      (m <> "DIRECT"%string \/ da = true -> m <> "CMA-ES"%string \/ (ca = true /\ dim <> 1%Z) -> r = m) /\
      check_optimizer_method_bo da ca r dim = Ok r
  | Raise e => e = AssertionError /\ ~ In m ["L-BFGS-B"; "DIRECT"; "CMA-ES"; "random_search"]%string
  end.
Proof. exact check_optimizer_method_bo_spec. Qed.
Print Assumptions optimizer_method_fallback.

Example optimizer_method_case : check_optimizer_method_bo true true "CMA-ES" 1 = Ok "L-BFGS-B"%string.
Proof. reflexivity. Qed.
