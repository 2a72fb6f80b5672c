(** Property C56 (samplers). *)
From Verif Require Import Base Num Monad UtilsModel SamplingModel SamplingSpec SamplingProofs View.
From Coq Require Import List ZArith Bool Reals Lra String.
From Flocq Require Import Core IEEE754.BinarySingleNaN.
Local Open Scope string_scope.

Theorem C56_samples : forall W G (mkstate : option Z -> W -> W * res G) unit_draw gauss_draw qmc (range_X : list (f64 * f64)) m num seed w w' rows,
  unit_contract unit_draw -> gauss_contract gauss_draw -> qmc_contract qmc ->
  Forall good_range range_X -> (m = "gaussian" -> Forall sum_finite range_X) -> m <> "grid" ->
  get_samples NumF mkstate unit_draw gauss_draw qmc range_X m num seed w = (w', Ok rows) ->
  List.length rows = Z.to_nat num /\ Forall (in_box range_X) rows.
Proof. intros. eapply samples_in_box; eassumption. Qed.
Print Assumptions C56_samples.

Theorem C56_initials : forall W G (mkstate : option Z -> W -> W * res G) unit_draw gauss_draw qmc (range_X : list (f64 * f64)) m num seed w w' rows,
  unit_contract unit_draw -> gauss_contract gauss_draw -> qmc_contract qmc ->
  Forall good_range range_X -> (m = "gaussian" -> Forall sum_finite range_X) ->
  get_initials NumF mkstate unit_draw gauss_draw qmc range_X m num seed w = (w', Ok rows) ->
  List.length rows = Z.to_nat num /\ Forall (in_box range_X) rows.
Proof.
  intros W G mkstate unit_draw gauss_draw qmc range_X m num seed w w' rows U GC Q F S H.
  destruct (in_dec string_dec m ["uniform"; "gaussian"; "sobol"; "halton"]) as [I|I].
  - rewrite initials_are_samples in H by exact I. eapply samples_in_box; try eassumption. intros ->. cbn in I. intuition discriminate.
  - rewrite initials_reject in H by exact I. discriminate H.
Qed.
Print Assumptions C56_initials.

(** the samplers return whenever numpy accepts the seed / scipy returns *)
Theorem C56_returns : forall W G (mkstate : option Z -> W -> W * res G) unit_draw gauss_draw qmc (range_X : list (f64 * f64)) m num seed w w1 g,
  unit_contract unit_draw -> gauss_contract gauss_draw -> Forall good_range range_X ->
  m = "uniform" \/ m = "gaussian" /\ Forall sum_finite range_X -> mkstate seed w = (w1, Ok g) ->
  exists rows, get_samples NumF mkstate unit_draw gauss_draw qmc range_X m num seed w = (w1, Ok rows).
Proof. intros. eapply samples_return; eassumption. Qed.
Print Assumptions C56_returns.
Theorem C56_returns_qmc : forall W G (mkstate : option Z -> W -> W * res G) unit_draw gauss_draw qmc (range_X : list (f64 * f64)) m k num seed w w1 s,
  m = "sobol" /\ k = Sobol \/ m = "halton" /\ k = Halton ->
  qmc k (List.length range_X) seed num w = (w1, Ok s) ->
  exists rows, get_samples NumF mkstate unit_draw gauss_draw qmc range_X m num seed w = (w1, Ok rows).
Proof. intros. eapply samples_qmc_return; eassumption. Qed.
Print Assumptions C56_returns_qmc.

(** a case where hi - lo is rounded up and the draw is the largest double below one: [-1, 1.5 * 2^-53] *)
Definition ex_lo := fofZ (-1). Definition ex_hi := fme 3 (-54).
Definition ex_u : f64 := fme 9007199254740991 (-53).
Definition ex_mk (s : option Z) (w : unit) : unit * res nat := (w, Ok 0%nat).
Definition ex_unit (g : nat) : nat * NumF := (S g, ex_u).
Definition ex_gauss (z : f64) (g : nat) : nat * NumF := (S g, z).
Definition ex_qmc (k : qmc_kind) (d : nat) (s : option Z) (n : Z) (w : unit) : unit * res (list (list NumF)) := (w, Ok (repeat (repeat ex_u d) (Z.to_nat n))).
Lemma ex_u_unit : is_unit ex_u.
Proof. split; [vm_compute; reflexivity|]. vm_compute. lra. Qed.
Lemma ex_qmc_contract : qmc_contract ex_qmc.
Proof.
  intros k d seed num w w' s H. unfold ex_qmc in H. apply pair_equal_spec in H. destruct H as (_ & H).
  apply (f_equal (fun r => match r with Ok a => a | Raise _ => [] end)) in H. cbv beta iota in H. subst s. rewrite repeat_length. split; [reflexivity|].
  apply Forall_forall. intros r I. apply repeat_spec in I. subst r. rewrite repeat_length. split; [reflexivity|].
  apply Forall_forall. intros x I. apply repeat_spec in I. subst x. apply ex_u_unit.
Qed.
Example C56_hyps_ok : unit_contract ex_unit /\ gauss_contract (ex_gauss (fofZ 5)) /\ qmc_contract ex_qmc /\
  Forall good_range [(ex_lo, ex_hi); (fofZ 0, fofZ 2)] /\ Forall sum_finite [(ex_lo, ex_hi); (fofZ 0, fofZ 2)].
Proof.
  split; [intros g; apply ex_u_unit|]. split; [intros g; vm_compute; reflexivity|]. split; [apply ex_qmc_contract|].
  split; repeat constructor; vm_compute; reflexivity.
Qed.
Definition ok_shape {A} (r : res (list (list A))) : option (list nat) := match r with Ok l => Some (map (@List.length A) l) | _ => None end.
Definition ok_in (range_X : list (f64 * f64)) (r : res (list (list NumF))) : bool :=
  match r with Ok l => forallb (fun row => forallb (fun p => (Bleb (fst (fst p)) (snd p : f64) && Bleb (snd p : f64) (snd (fst p)))%bool) (combine range_X row)) l | _ => false end.
Example C56_example : forall m, In m ["uniform"; "gaussian"; "sobol"; "halton"] ->
  let r := snd (get_initials NumF ex_mk ex_unit (ex_gauss (fofZ 5)) ex_qmc [(ex_lo, ex_hi); (fofZ 0, fofZ 2)] m 3 None tt) in
  ok_shape r = Some [2; 2; 2]%nat /\ ok_in [(ex_lo, ex_hi); (fofZ 0, fofZ 2)] r = true.
Proof. intros m [<-|[<-|[<-|[<-|[]]]]]; vm_compute; split; reflexivity. Qed.

(** Finding: without the proviso on hi + lo the Gaussian sampler can return NaN: range [2^971, largest double],
    a draw five standard deviations below the mean (mean = inf, draw * std = -inf) *)
Definition big_lo := fme 1 971. Definition big_hi := fme 9007199254740991 971.
Theorem C56_gaussian_nan_refuted : exists (range_X : list (f64 * f64)) (z : f64) rows,
  Forall good_range range_X /\ is_finite z = true /\
  snd (get_samples NumF ex_mk ex_unit (ex_gauss z) ex_qmc range_X "gaussian" 1 None tt) = Ok rows /\
  ~ Forall (in_box range_X) rows.
Proof.
  set (x := npclip NumF (nadd NumF (nmul NumF (fofZ (-5)) (ndiv NumF (nsub NumF big_hi big_lo) (nofZ NumF 4))) (ndiv NumF (nadd NumF big_hi big_lo) (nofZ NumF 2))) big_lo big_hi).
  exists [(big_lo, big_hi)], (fofZ (-5)), [[x]].
  split; [repeat constructor; vm_compute; reflexivity|]. split; [vm_compute; reflexivity|]. split; [reflexivity|].
  intros H. inversion H as [|? ? B _]; subst. inversion B as [|? ? ? ? (I & _) _]; subst. cbn [fst] in I.
  assert (K : Bleb big_lo (x : f64) = false) by (vm_compute; reflexivity). rewrite K in I. discriminate I.
Qed.
Print Assumptions C56_gaussian_nan_refuted.
