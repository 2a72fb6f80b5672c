(** The samplers of the code, over the reals, are what C83 asks of samplers. *)
From Verif Require Import Base Lists Num NumLaws UtilsModel UtilsSpec GridProofs Monad SamplingModel BOTotalSpec MoveSpec.
From Coq Require Import List ZArith Bool String Lia Lra Arith Reals.
From Flocq Require Import Core.Raux.
Import ListNotations.
Unset Asymmetric Patterns.
Set Bullet Behavior "Strict Subproofs".
Local Open Scope R_scope.
Notation N := NumR.

Section Samplers.
Context (W G : Type) (mkstate : option Z -> W -> W * res G) (unit_draw gauss_draw : G -> G * N).
Context (qmc : qmc_kind -> nat -> option Z -> Z -> W -> W * res (list (list N))).
Context (HM : forall seed w, exists w' g, mkstate seed w = (w', Ok g)) (HU : forall g, 0 <= snd (unit_draw g) <= 1).
Context (HQ : forall k d seed num w, exists w' s, qmc k d seed num w = (w', Ok s) /\ List.length s = Z.to_nat num /\ Forall (fun r : list R => List.length r = d /\ Forall (fun u => 0 <= u <= 1) r) s).

Definition inside_one (one : N -> N -> G -> G * res N) : Prop := forall (lo hi : R) g, lo <= hi -> exists g' v, one lo hi g = (g', Ok v) /\ lo <= v <= hi.
Lemma scaled_in (lo hi u : R) : lo <= hi -> 0 <= u <= 1 -> lo <= u * (hi - lo) + lo <= hi.
Proof. intros H [U1 U2]. split; [|assert (u * (hi - lo) <= 1 * (hi - lo)) by (apply Rmult_le_compat_r; lra); lra]. assert (0 <= u * (hi - lo)) by (apply Rmult_le_pos; lra). lra. Qed.
Lemma uniform_inside : inside_one (rs_uniform N unit_draw).
Proof.
  intros lo hi g H. unfold rs_uniform, nfinite. cbn [nltinf NumR andb]. pose proof (HU g) as U. destruct (unit_draw g) as [g' u]. cbn [snd] in U.
  eexists _, _. split; [reflexivity|]. exact (scaled_in lo hi u H U).
Qed.
Lemma gaussian_inside : inside_one (rs_gaussian N gauss_draw).
Proof.
  intros lo hi g H. unfold rs_gaussian. destruct (gauss_draw g) as [g' z]. eexists _, _. split; [reflexivity|]. unfold npclip.
  match goal with |- context [npmax2 N ?x lo] => generalize x; intros v end. cbn in v. unfold npmin2, npmax2. cbn [nisnan NumR nlt].
  destruct (Rlt_bool_spec v lo) as [A|A]; match goal with |- context [Rlt_bool ?a ?b] => destruct (Rlt_bool_spec a b) as [B|B] end; lra.
Qed.
Lemma row_inside one : inside_one one -> forall r : list (R * R), sound_range r -> forall g, exists g' t x, draw_row N one r g = (g', t, Ok x) /\ in_range r x.
Proof.
  intros H1. unfold draw_row. induction r as [|[lo hi] r IH]; intros SR g; [exists g, [], []; split; [reflexivity|constructor]|]. inversion SR as [|? ? P Q]; subst. cbn in P.
  cbn [mmapM fst snd]. unfold bind at 1. unfold ext at 1. destruct (H1 lo hi g P) as (g1 & v & E & V). rewrite E. unfold bind. destruct (IH Q g1) as (g2 & t & x & Ex & X). rewrite Ex.
  eexists _, _, _. split; [reflexivity|]. constructor; [exact V|exact X].
Qed.
Lemma rows_inside one (r : list (R * R)) num g : inside_one one -> sound_range r -> exists g' t l, draw_rows N one r num g = (g', t, Ok l) /\ List.length l = Z.to_nat num /\ Forall (in_range r) l.
Proof.
  intros H1 SR. unfold draw_rows. set (ks := seq 0 (Z.to_nat num)). assert (LK : List.length ks = Z.to_nat num) by apply seq_length. clearbody ks. rewrite <- LK. clear LK. revert g.
  induction ks as [|k ks IH]; intros g; [exists g, [], []; repeat split; constructor|]. cbn [mmapM]. unfold bind at 1. destruct (row_inside one H1 r SR g) as (g1 & t & x & E & X). rewrite E.
  unfold bind. destruct (IH g1) as (g2 & t2 & l & El & L & F). rewrite El. eexists _, _, _. split; [reflexivity|]. split; [exact (f_equal S L)|]. constructor; [exact X|exact F].
Qed.
Lemma scale_inside (r : list (R * R)) : sound_range r -> forall u, List.length u = List.length r -> Forall (fun u => 0 <= u <= 1) u -> in_range r (scale_row N r u).
Proof.
  unfold scale_row. induction 1 as [|[lo hi] r P Q IH]; intros [|u us] L F; try discriminate; [constructor|]. inversion F; subst. injection L as L. cbn [combine map]. constructor; [|now apply IH].
  cbn [fst snd]. apply (scaled_in lo hi u P). assumption.
Qed.
Theorem samplers_proper (r : list (R * R)) : r <> [] -> sound_range r -> proper_samples r (get_samples N mkstate unit_draw gauss_draw qmc r).
Proof.
  intros NR SR m num seed w HIn HN. assert (NZ : Z.to_nat num <> 0%nat) by lia.
  assert (HST : forall one, inside_one one -> exists w' l, with_state N mkstate one r num seed w = (w', Ok l) /\ l <> [] /\ Forall (in_range r) l /\ List.length l = Z.to_nat num).
  { intros one H1. unfold with_state. destruct (HM seed w) as (w1 & g & E). rewrite E. destruct (rows_inside one r num g H1 SR) as (g' & t & l & El & L & F). rewrite El. cbn [snd].
    exists w1, l. repeat split; try assumption. intros ->. apply NZ. symmetry. exact L. }
  assert (HQS : forall k, exists w' l, get_samples_qmc N qmc k r num seed w = (w', Ok l) /\ l <> [] /\ Forall (in_range r) l /\ List.length l = Z.to_nat num).
  { intros k. unfold get_samples_qmc. destruct (HQ k (@List.length (N * N) r) seed num w) as (w1 & s & E & L & F). rewrite E. exists w1, (map (scale_row N r) s). split; [reflexivity|].
    split; [destruct s; [exfalso; apply NZ; symmetry; exact L|discriminate]|]. split; [|rewrite map_length; exact L]. apply Forall_forall. intros x Hx. apply in_map_iff in Hx as (u & <- & Hu).
    destruct (proj1 (Forall_forall _ _) F u Hu) as (Lu & Fu). now apply scale_inside. }
  assert (HGR : exists w' l, (w, get_grids N r num) = (w', Ok l) /\ l <> [] /\ Forall (in_range r) l).
  { assert (OK : is_ok (get_grids N r num) = true).
    { apply get_grids_succeeds. split; [exact NR|]. split; [lia|]. eapply Forall_impl; [|exact SR]. intros b Hb. now apply Rle_bool_true. }
    destruct (get_grids N r num) as [rows|] eqn:EG; [|discriminate]. exists w, rows. split; [reflexivity|]. destruct (get_grids_product _ _ _ _ EG) as (_ & _ & _ & _ & L & _). split.
    - intros ->. symmetry in L. cbn in L. apply Nat.pow_eq_0_iff in L. lia.
    - apply Forall_forall. intros x Hx. exact (get_grids_in_box r num rows EG x Hx). }
  cbn in HIn. unfold get_samples. destruct HIn as [<-|[<-|[<-|[<-|[<-|[]]]]]]; cbn -[get_grids get_samples_qmc with_state].
  - destruct HGR as (w' & l & E & A & B). exists w', l. split; [exact E|]. split; [exact A|]. split; [exact B|]. congruence.
  - destruct (HQS Sobol) as (w' & l & E & A & B & C). exists w', l. auto.
  - destruct (HQS Halton) as (w' & l & E & A & B & C). exists w', l. auto.
  - destruct (HST _ uniform_inside) as (w' & l & E & A & B & C). exists w', l. auto.
  - destruct (HST _ gaussian_inside) as (w' & l & E & A & B & C). exists w', l. auto.
Qed.
End Samplers.
