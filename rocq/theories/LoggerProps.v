(** Properties of utils_logger.py and of the loggers of the package: C72, C73, C80. *)
From Verif Require Import Base LoggerModel LoggerSpec LoggerProofs.
From Coq Require Import List ZArith Bool Ascii String Lia.
Set Implicit Arguments.
Local Open Scope string_scope.

(** C72: the words of the text are the formatted entries in order; *)
Theorem C72_entries : forall (A : Type) (is_float : A -> bool) (f3 str : A -> string) (a : tensor A) (s : string),
  Forall (fun x => one_word (if is_float x then f3 x else str x)) (entries a) ->
  get_str_array is_float f3 str a = Ok s ->
  words s = map (fun x => if is_float x then f3 x else str x) (entries a).
Proof. intros A is_float f3 str a s. exact (@array_words A is_float f3 str a s). Qed.
Print Assumptions C72_entries.

(** two arrays with the same text have the same nested lists of formatted entries, whatever their ranks; *)
Theorem C72_unique : forall (A : Type) (is_float : A -> bool) (f3 str : A -> string) (a b : tensor A) (s : string),
  Forall (fun x => plain (if is_float x then f3 x else str x)) (entries a) ->
  Forall (fun x => plain (if is_float x then f3 x else str x)) (entries b) ->
  get_str_array is_float f3 str a = Ok s -> get_str_array is_float f3 str b = Ok s ->
  nested (fun x => if is_float x then f3 x else str x) a = nested (fun x => if is_float x then f3 x else str x) b.
Proof. intros A is_float f3 str a b s. exact (@array_inj A is_float f3 str a b s). Qed.
Print Assumptions C72_unique.

(** ranks one to three are formatted and all others raise NotImplementedError *)
Theorem C72_ranks : forall (A : Type) (is_float : A -> bool) (f3 str : A -> string) (a : tensor A),
  (rank_ok a -> exists s, get_str_array is_float f3 str a = Ok s) /\
  (~ rank_ok a -> get_str_array is_float f3 str a = Raise NotImplementedError).
Proof. intros A is_float f3 str a. exact (array_ranks is_float f3 str a). Qed.
Print Assumptions C72_ranks.

Definition ex_digits (z : Z) : string := match z with 1%Z => "1.000" | 2%Z => "2.000" | 3%Z => "-3.250" | _ => "nan" end.
Example C72_example :
  Forall (fun x => one_word (ex_digits x)) (entries (T2 [[1; 2]; [3; 4]]%Z)) /\
  Forall (fun x => plain (ex_digits x)) (entries (T2 [[1; 2]; [3; 4]]%Z)) /\
  get_str_array (fun _ => true) ex_digits ex_digits (T2 [[1; 2]; [3; 4]]%Z) = Ok ("[[1.000, 2.000]," ++ nl ++ "[-3.250, nan]]") /\
  rank_ok (T2 [[1; 2]; [3; 4]]%Z) /\ ~ rank_ok (TN Z 4).
Proof.
  repeat split; cbn; try (intros []);
    repeat (apply Forall_cons; [split; [discriminate|reflexivity]|]); apply Forall_nil.
Qed.

(** C73 is false: requesting a name twice makes every message of that logger appear twice *)
Theorem C73_refuted : exists name names,
  names = [name; name] /\ log name (request_all names []) = [name; name].
Proof. exists "bo_w_gp", ["bo_w_gp"; "bo_w_gp"]. exact (conj eq_refl eq_refl). Qed.
Print Assumptions C73_refuted.

(** what holds: a message is written once for every request of the name or of an ancestor of it, in the order of
    the requests ... *)
Theorem C73_partial : forall name names,
  exists above, log name (request_all names []) = map canonical above /\
    sublist above names /\
    (forall n, In n above <-> In n names /\ (canonical n = canonical name \/ ancestor (canonical n) (canonical name))) /\
    (forall n, canonical n = canonical name \/ ancestor (canonical n) (canonical name) ->
       count_occ string_dec above n = count_occ string_dec names n).
Proof. exact log_requests. Qed.
Print Assumptions C73_partial.

(** ... and so exactly once if the name was requested once and no ancestor was requested *)
Theorem C73_once_partial : forall name before after,
  (forall n, In n (before ++ after)%list -> canonical n <> canonical name /\ ~ ancestor (canonical n) (canonical name)) ->
  log name (request_all (before ++ name :: after)%list []) = [canonical name].
Proof. exact log_once. Qed.
Print Assumptions C73_once_partial.

(** [k] optimisers of the same kind with the same experiment name write every message at least [k] times *)
Theorem C73_objects : forall surrogate e others k,
  (k <= List.length (log (bo_logger_name surrogate e) (request_all (others ++ repeat (bo_logger_name surrogate e) k)%list [])))%nat.
Proof. exact log_objects. Qed.
Print Assumptions C73_objects.

(** the loggers of the package do not mix: after importing it and building any objects whose experiment names have no dot, a message of a module is
    written once and a message of an object as often as there are objects with its surrogate and experiment name *)
Theorem C73_separate : forall l : list (string * option string), Forall (fun p => In (fst p) ["gp"; "tp"; "rf"] /\ undotted (snd p)) l ->
  let h := request_all (module_loggers ++ map (fun p => bo_logger_name (fst p) (snd p)) l)%list [] in
  (forall m, In m module_loggers -> List.length (log m h) = 1%nat) /\
  (forall s e, In s ["gp"; "tp"; "rf"] -> undotted e -> List.length (log (bo_logger_name s e) h) = count_occ object_dec l (s, e)).
Proof. exact log_separate. Qed.
Print Assumptions C73_separate.

(** with dots they do: the messages of experiment a.b are also written by the handler of experiment a *)
Theorem C73_dots : forall s e e', log (bo_logger_name s (Some (e ++ "." ++ e'))) (request_all [bo_logger_name s (Some e); bo_logger_name s (Some (e ++ "." ++ e'))] []) =
  ["bo_w_" ++ s ++ "_" ++ e; "bo_w_" ++ s ++ "_" ++ e ++ "." ++ e'].
Proof. exact log_dots. Qed.
Print Assumptions C73_dots.

Example C73_separate_example : let l := [("gp", None); ("gp", Some "run"); ("rf", Some "run"); ("gp", Some "run")] in
  Forall (fun p => In (fst p) ["gp"; "tp"; "rf"] /\ undotted (snd p)) l /\ count_occ object_dec l ("gp", Some "run") = 2%nat /\ bo_logger_name "gp" None = "bo_w_gp".
Proof. cbn. repeat split; repeat constructor; cbn; tauto. Qed.

Example C73_example :
  (forall n, In n (["bo_w_tp"; "bo_w_gp_exp"] ++ ["thompson"])%list -> canonical n <> canonical "bo_w_gp" /\ ~ ancestor (canonical n) (canonical "bo_w_gp")) /\
  log "bo_w_gp" (request_all ["bo_w_tp"; "bo_w_gp"; "bo_w_gp_exp"; "thompson"] []) = ["bo_w_gp"] /\
  log "bo_w_gp" (request_all ["root"; "bo_w_gp"] []) = [""; "bo_w_gp"] /\
  log "a.b" (request_all ["a"; "a.b"; "a.bc"] []) = ["a"; "a.b"].
Proof.
  repeat split.
  - cbn in H. decompose [or] H; subst; try discriminate; contradiction.
  - intros Q. pose proof (proj2 (above_iff _ _) (or_intror Q)) as Q2.
    cbn in H. decompose [or] H; subst; try discriminate Q2; contradiction.
Qed.

(** C80: the text of a dictionary of hyperparameters determines the keys and the formatted values, in order *)
Theorem C80 : forall (A : Type) (is_float : A -> bool) (f3 str : A -> string) (h1 h2 : list (string * dval A)) (s : string),
  Forall (fun p => has_no is_quote (fst p) = true /\ dplain is_float f3 str (snd p)) h1 ->
  Forall (fun p => has_no is_quote (fst p) = true /\ dplain is_float f3 str (snd p)) h2 ->
  get_str_hyps is_float f3 str h1 = Ok s -> get_str_hyps is_float f3 str h2 = Ok s ->
  map (fun p => (fst p, dnested is_float f3 str (snd p))) h1 = map (fun p => (fst p, dnested is_float f3 str (snd p))) h2.
Proof. intros A is_float f3 str h1 h2 s. exact (@dict_inj A is_float f3 str h1 h2 s). Qed.
Print Assumptions C80.

(** the words of the text are the keys, each followed by the formatted entries of its value, in order *)
Theorem C80_order : forall (A : Type) (is_float : A -> bool) (f3 str : A -> string) (h : list (string * dval A)) (s : string),
  Forall (fun p => has_no separator (fst p) = true /\ Forall one_word (dwords is_float f3 str (snd p))) h ->
  get_str_hyps is_float f3 str h = Ok s ->
  words s = flat_map (fun p => key_word (fst p) :: dwords is_float f3 str (snd p)) h.
Proof. intros A is_float f3 str h s. exact (@dict_words A is_float f3 str h s). Qed.
Print Assumptions C80_order.

(** and it never fails on arrays of rank one to three *)
Theorem C80_ok : forall (A : Type) (is_float : A -> bool) (f3 str : A -> string) (h : list (string * dval A)),
  (forall k v, In (k, v) h -> match v with DArr (TN _ _) => False | _ => True end) ->
  exists s, get_str_hyps is_float f3 str h = Ok s.
Proof. intros A is_float f3 str h. exact (@dict_ok A is_float f3 str h). Qed.
Print Assumptions C80_ok.

Example C80_example :
  let h := [("signal", DFloat 1%Z); ("lengthscales", DArr (T1 [2; 3]%Z)); ("noise", DOther 4%Z)] in
  Forall (fun p => has_no is_quote (fst p) = true /\ dplain (fun _ => true) ex_digits ex_digits (snd p)) h /\
  Forall (fun p => has_no separator (fst p) = true /\ Forall one_word (dwords (fun _ => true) ex_digits ex_digits (snd p))) h /\
  get_str_hyps (fun _ => true) ex_digits ex_digits h = Ok "{'signal': 1.000, 'lengthscales': [2.000, -3.250], 'noise': nan}" /\
  (forall k v, In (k, v) h -> match v with DArr (TN _ _) => False | _ => True end).
Proof.
  split; [|split; [|split; [reflexivity|]]].
  1, 2: repeat (apply Forall_cons; [split; [reflexivity|]|]); [| | |apply Forall_nil]; cbn;
      repeat (apply Forall_cons; [|]); try apply Forall_nil; try (split; [discriminate|reflexivity]).
  - intros k v H. cbn in H. decompose [or] H; try contradiction; match goal with K : (_, _) = (_, _) |- _ => injection K as <- <-; exact Logic.I end.
Qed.
