(** Property C116: what is ordered in exact arithmetic stays ordered in binary64. *)
From Verif Require Import Base Lists Num NumLaws UtilsModel UtilsSpec AcqModel FloatSpec FloatOps FloatOrder FloatProps.
From Coq Require Import Reals ZArith Bool String List Lra Lia.
From Flocq Require Import Core IEEE754.BinarySingleNaN.
Import ListNotations.
Local Open Scope R_scope.

(** the time axis: times may be infinite, sums may overflow *)
Theorem C116_time_axis : forall (T : mat NumF) num_init inc (out : list f64), mat_wf T -> few (nrows T) ->
  (forall row t, In row (mrows T) -> In t row -> nle NumF (nofZ NumF 0) t = true) -> get_time NumF T num_init inc = Ok out ->
  forall k l v w, (k <= l)%nat -> nth_error out k = Some v -> nth_error out l = Some w -> nle NumF v w = true.
Proof. exact get_time_nondecreasing. Qed.
Print Assumptions C116_time_axis.
(** the curve of the mean best responses: sums may overflow *)
Theorem C116_mean_curve : forall (Y : mat NumF) num_init out, mat_wf Y -> few (nrows Y) ->
  (forall row y, In row (mrows Y) -> In y row -> finite y) -> get_minimum NumF Y num_init = Ok out ->
  forall k l v w, (k <= l)%nat -> nth_error (mo_mean out) k = Some v -> nth_error (mo_mean out) l = Some w -> nle NumF w v = true.
Proof. exact get_minimum_mean_nonincreasing. Qed.
Print Assumptions C116_mean_curve.
(** acquisition values: of two predictions the one with smaller or equal mean and larger or equal deviation (for pi: the same)
    has the larger or equal value *)
Theorem C116_acquisitions : forall (cdf pdf lg : f64 -> f64) str_acq noise mu sd (Y : list f64) f a i j (m s v m' s' v' : f64),
  monotone cdf -> log_like lg -> In str_acq ["pi"; "ucb"; "pure_exploit"; "pure_explore"]%string ->
  preds_ok mu sd -> Y <> [] -> few (List.length Y) -> Forall (within 480) Y ->
  choose_fun_acquisition NumF cdf pdf lg str_acq noise = Ok f -> f mu sd Y = Ok a ->
  nth_error mu i = Some m -> nth_error sd i = Some s -> nth_error a i = Some v ->
  nth_error mu j = Some m' -> nth_error sd j = Some s' -> nth_error a j = Some v' ->
  B2R m' <= B2R m -> B2R s <= B2R s' -> (str_acq = "pi"%string -> s' = s) -> B2R v <= B2R v'.
Proof. intros cdf pdf lg str_acq noise mu sd Y f a i j m s v m' s' v' HM HL. exact (@acquisitions_mono cdf pdf lg HM HL str_acq noise mu sd Y f a i j m s v m' s' v'). Qed.
Print Assumptions C116_acquisitions.

(** times with an infinite entry; finite responses whose sums overflow *)
Example C116_example_time : let T : mat NumF := mkmat [[fofZ 1; fofZ 2; finf]; [fofZ 0; fofZ 3; fofZ 1]] 3 in
  mat_wf T /\ few (nrows T) /\ (forall row t, In row (mrows T) -> In t row -> nle NumF (nofZ NumF 0) t = true) /\ is_ok (get_time NumF T 1 false) = true.
Proof.
  cbn zeta. split; [intros r [<-|[<-|[]]]; reflexivity|]. split; [unfold few; cbn; lia|]. split; [|vm_compute; reflexivity].
  intros row t [<-|[<-|[]]] [<-|[<-|[<-|[]]]]; vm_compute; reflexivity.
Qed.
Example C116_example_curve : let Y : mat NumF := mkmat [[huge; fofZ 2; Bopp huge]; [huge; fofZ 3; Bopp huge]] 3 in
  mat_wf Y /\ few (nrows Y) /\ (forall row y, In row (mrows Y) -> In y row -> finite y) /\
  rmap (fun o => map View.fview (mo_mean o)) (get_minimum NumF Y 1) = Ok (map View.fview [finf; fdiv (fofZ 5) (fofZ 2); Bopp finf]).
Proof.
  cbn zeta. split; [intros r [<-|[<-|[]]]; reflexivity|]. split; [unfold few; cbn; lia|]. split; [|vm_compute; reflexivity].
  intros row t [<-|[<-|[]]] [<-|[<-|[<-|[]]]]; vm_compute; reflexivity.
Qed.
Example C116_example_contracts : monotone (fun x => if nlt NumF x (fofZ 0) then fofZ 0 else fofZ 1) /\ log_like (fun _ => fofZ 0).
Proof.
  split; [|exact zero_log]. intros x y Fx Fy L. destruct (fofZ_val 0 ltac:(reflexivity)) as (F & E). destruct (fofZ_val 1 ltac:(reflexivity)) as (F1 & E1).
  rewrite !FloatNorm.flt_R by assumption. rewrite E. destruct (Raux.Rlt_bool_spec (B2R x) 0), (Raux.Rlt_bool_spec (B2R y) 0); rewrite ?E, ?E1; lra.
Qed.
