(** The results of repeated runs can be plotted. *)
From Verif Require Import Base Lists Num NumLaws NumFin Monad UtilsModel UtilsSpec HypsModel CovModel CovSpec Contracts GPModel GPSpec LikModel LikSpec HypOptModel
  AcqModel TreesModel TreesSpec WrapperModel WrapperProofs BOModel BOAcqModel BOAcqSpec BOFullModel BOProgram BOObject BOTotalSpec BOTotalRun UseSpec UseProofs PlotModel PlotSpec PlotProofs.
From Coq Require Import List ZArith Bool String Reals Lra Lia Arith.
Import ListNotations.
Unset Asymmetric Patterns.
Set Bullet Behavior "Strict Subproofs".
Set Implicit Arguments.

Lemma mmapM_forall {W E A B} (f : A -> M W E B) (P : B -> Prop) : (forall x w w' t r, f x w = (w', t, Ok r) -> P r) ->
  forall l w w' t rs, mmapM f l w = (w', t, Ok rs) -> Forall P rs.
Proof.
  intros H. induction l as [|x l IH]; intros w w' t rs E0; cbn [mmapM] in E0.
  - apply ret_ok in E0. destruct E0 as (<- & _). constructor.
  - minv. subst. constructor; [eapply H; eassumption|eapply IH; eassumption].
Qed.

Section Times.
Context (N : Num) (W : Type).
Lemma optimize_times (target : list N -> W -> W * res N) time_ single init meth num_iter num_init seed w w' t r :
  class_optimize N W target time_ single init meth num_iter num_init seed w = (w', t, Ok r) -> List.length (ro_tall r) = List.length (ro_Y r).
Proof.
  intros H. apply class_optimize_inv in H. destruct H as [((e & Q) & _)|(w1 & w2 & X & w3 & _ & _ & H)]; [discriminate|].
  apply initial_inputs_calls in H. destruct H as (ps & _ & -> & _ & L & _ & LT & _). rewrite LT, map_length. symmetry. exact L.
Qed.
End Times.

(** what a plot of repeated runs needs *)
Lemma rounds_plot (rs : list (run_out NumR)) (n k : nat) label ncolors nmarkers ds im il p s (range_shade : R) :
  rs <> [] -> (0 < n)%nat -> (0 < k)%nat -> Forall (fun r => List.length (ro_Y r) = (n + k)%nat /\ List.length (ro_tall r) = (n + k)%nat) rs -> (0 < ncolors)%nat -> (0 < nmarkers)%nat ->
  exists c lo hi,
    plot_minimum_vs_time NumR true ncolors nmarkers (mkcube [map ro_tall rs] (List.length rs) (n + k)) (mkcube [map ro_Y rs] (List.length rs) (n + k)) [label] (Z.of_nat n) ds im il p s range_shade tt =
    (tt, figure 0 ncolors nmarkers ds im [label] [c] ++ Xlim 0 (lo : NumR) hi :: closing "minimum_time_" [label] ds il p s, Ok tt) /\
    shows_best n (n + k) range_shade (map ro_Y rs) c /\ elapsed (skipn n) (map ro_tall rs) (sh_x c).
Proof.
  intros HN Hn Hk HF HC HM. rewrite Forall_forall in HF.
  assert (LN : (0 < List.length rs)%nat) by (destruct rs; [congruence|cbn; lia]).
  destruct (@vs_time_shows ncolors nmarkers (mkcube [map ro_tall rs] (List.length rs) (n + k)) (mkcube [map ro_Y rs] (List.length rs) (n + k)) [label] (Z.of_nat n) ds im il p s range_shade) as (cs & lo & hi & E & F & _ & _).
  - intros e [<-|[]]. cbn [crounds ccols]. rewrite map_length. split; [reflexivity|]. intros r Hr. apply in_map_iff in Hr as (q & <- & Hq). apply HF, Hq.
  - intros e [<-|[]]. cbn [crounds ccols]. rewrite map_length. split; [reflexivity|]. intros r Hr. apply in_map_iff in Hr as (q & <- & Hq). apply HF, Hq.
  - discriminate.
  - exact LN.
  - reflexivity.
  - reflexivity.
  - reflexivity.
  - now left.
  - cbn [ccols]. lia.
  - exact HC.
  - exact HM.
  - cbn [cexps ccols combine] in F. rewrite Nat.eqb_refl in F. inversion F as [|? c ? cs' [F1 F2] F3]; subst. inversion F3; subst. cbn [fst snd] in F1, F2. rewrite Nat2Z.id in F1, F2.
    exists c, lo, hi. split; [exact E|]. split; [exact F1|exact F2].
Qed.

Lemma mmapM_map {W E A B C} (f : B -> M W E C) (g : A -> B) l : forall w, mmapM f (map g l) w = mmapM (fun x => f (g x)) l w.
Proof.
  induction l as [|x l IH]; intros w; [reflexivity|]. cbn [map mmapM]. unfold bind at 1 3. destruct (f (g x) w) as [[w1 t1] [b|e]]; [|reflexivity].
  unfold bind. rewrite IH. reflexivity.
Qed.
Lemma Forall2_map_l {A B C} (P : B -> C -> Prop) (g : A -> B) l l' : Forall2 P (map g l) l' -> Forall2 (fun x => P (g x)) l l'.
Proof. revert l'. induction l as [|x l IH]; intros l' H; inversion H; subst; constructor; auto. Qed.
Lemma new_num_iter (N : Num) da ca (a : bo_args N) ob : new_object N da ca a = Ok ob -> (0 < a_num_iter N a)%Z.
Proof.
  unfold new_object. destruct (bo_init N da ca a) as [M0|] eqn:EI; [|discriminate]. intros _. unfold bo_init in EI.
  apply BOTotalFull.assert_ok in EI as (_ & EI). apply BOTotalFull.assert_ok in EI as (Q & _). apply Z.ltb_lt. exact Q.
Qed.
