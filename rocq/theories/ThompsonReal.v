(** Thompson sampling on exact reals: an iteration returns whenever the libraries do. *)
From Verif Require Import Base Lists Num Monad UtilsModel UtilsSpec HypsModel HypsSpec HypsProofs CovModel KernelSpec CovSpec CovProofs CovProofs2
  GPProofs2 GPModel GPSpec GPProofs LikModel HypOptModel HypOptSpec HypOptProofs WrapperModel BOModel
  ThompsonModel ThompsonSpec ThompsonProofs ThompsonProofs2 PredictOpt.
From Coq Require Import List ZArith Bool String Reals Lra Lia Arith.
Import ListNotations.
Local Open Scope string_scope.
Set Implicit Arguments.
Unset Strict Implicit.
Unset Asymmetric Patterns.
Set Bullet Behavior "Strict Subproofs".

(** an optimiser that always returns, with the right number of components *)
Definition returns_point (minimize : minimizer NumR) : Prop :=
  forall f start m b j, exists x, minimize f start m b j = Ok x /\ List.length x = List.length start.

Section Real.
Variables (inv chol : list (list R) -> res (list (list R))) (cho_solve : list (list R) -> list (list R) -> res (list (list R)))
  (slogdet : list (list R) -> R * R) (minimize : minimizer NumR).
Hypotheses (HI : inv_contract inv) (HM : returns_point minimize).

Lemma predict_opt_real name X Xs d Y opt fx : fits name X d -> fits name Xs d -> column (alen X) Y -> In opt ALLOWED_OPTIMIZER_METHOD_GP ->
  exists mu sd S, @predict_with_optimized_hyps NumR exp ln PI inv chol cho_solve slogdet minimize X Y Xs name opt None fx = Ok (mu, sd, S) /\
    is_mx (alen Xs) 1 mu /\ is_mx (alen Xs) (alen Xs) S.
Proof.
  intros F Fs HY Ho. destruct (fits_shape_pair F Fs) as (CK & CK1 & VA). destruct (fits_facts F) as (Hc & ED & HK).
  rewrite (@gp_predict_opt NumR exp ln PI inv chol cho_solve slogdet minimize X Y Xs None name opt fx (VA Y HY) CK Ho).
  destruct (@gp_calls NumR literals_ok_R exp ln PI inv chol cho_solve slogdet minimize X Y None (mkmat (zeros NumR (alen X) 1) 1) name d true fx
     (fits_validate F HY) CK1 eq_refl ED Hc opt "ml" Ho (or_introl eq_refl)) as (start & bounds & meth & jac & (r & _ & _ & LS & _) & _ & _ & ->).
  match goal with |- context [minimize ?a ?b ?c ?dd ?e] => destruct (@HM a b c dd e) as (x & -> & Lx) end. cbn [rbind].
  destruct (@finish_real_gp name X d inv F HI true fx x (eq_trans Lx LS)) as (C & B & h & E & ER & _).
  destruct (@restored name d true true fx x (GP_NOISE NumR) Hc (eq_trans Lx LS)) as (h' & ls & s & nz & ER' & HH & _).
  assert (h' = h) as -> by congruence. rewrite E. destruct (HK ls s) as [K EK].
  assert (RG : regression name h d ls s nz K None (fun _ => 0%R)) by (constructor; [exact HH|exact EK|intros e; reflexivity]).
  destruct (predict_ok RG HI F Fs HY) as (mu & sd & S & EP & S1 & _ & S2 & _). exists mu, sd, S. auto.
Qed.

Lemma has_shape_mx n m (a : list (list R)) : is_mx n m a -> has_shape NumR n m a = true.
Proof.
  intros [L F]. apply andb_true_iff. split; [apply Nat.eqb_eq; exact L|]. apply forallb_forall. intros r I. apply Nat.eqb_eq. exact (F r I).
Qed.
Lemma jitter_mx n (a : list (list R)) j : is_mx n n a -> is_mx n n (madd NumR a (mmap NumR (nmul NumR j) (eye NumR (List.length a) (List.length a)))).
Proof.
  intros [L F]. replace (List.length a) with n by (symmetry; exact L). split.
  - unfold madd. rewrite map2_length; [exact L|]. unfold mmap, eye, mgen. now rewrite !map_length, seq_length.
  - intros r I. unfold madd, map2 in I. apply in_map_iff in I as ((p & q) & <- & I). pose proof (in_combine_l _ _ _ _ I) as I1. apply in_combine_r in I.
    unfold mmap, eye, mgen in I. apply in_map_iff in I as (q0 & <- & I). apply in_map_iff in I as (i & <- & _).
    cbn [fst snd]. pose proof (F p I1) as Q. rewrite map_length, combine_length, !map_length, seq_length. change (car NumR) with R in *. lia.
Qed.

Context (W G : Type) (mvn : list NumR -> list (list NumR) -> W -> W * res G) (rvs : G -> W -> W * res (list NumR)) (lae da ca : bool).
Context (get_samples : list (NumR * NumR) -> string -> Z -> option Z -> W -> W * res (list (list NumR))).

Lemma default_bo_ok range : forallb (fun b => nle NumR (fst b) (snd b)) range = true -> default_bo NumR da ca range = Ok tt.
Proof.
  intros R. unfold default_bo, gp_init, base_init. change (range_ok NumR range) with (forallb (fun b => nle NumR (fst b) (snd b)) range).
  rewrite R. reflexivity.
Qed.

Lemma iteration_returns range (X : mat NumR) (Y : list NumR) (norm : bool) (Yn : list NumR) method num (w w1 : W) p0 pts (v : list NumR) :
  mat_wf X -> nrows X = List.length Y -> List.length range = mcols X ->
  forallb (fun b => nle NumR (fst b) (snd b)) range = true ->
  (if norm then normalize_min_max NumR Y else Ok Y) = Ok Yn -> List.length Yn = List.length Y ->
  get_samples range method num None w = (w1, Ok (p0 :: pts)) -> Forall (fun p => List.length p = mcols X) (p0 :: pts) ->
  (forall mu Sg w, List.length mu = S (List.length pts) -> exists w' g, mvn mu Sg w = (w', Ok g) /\ forall w2, exists w3, rvs g w2 = (w3, Ok v)) ->
  (1 <= List.length pts)%nat -> v <> [] ->
  exists w', ts_iteration mvn rvs lae exp ln PI inv chol cho_solve slogdet minimize da ca get_samples range X Y norm method num w
    = (w', [TsCands (p0 :: pts); TsDraw v], Ok p0).
Proof.
  intros WF LY LR OKR EN LN EG FP HV L2 NE.
  set (P := p0 :: pts) in *.
  assert (EX : np_array_rows P = Ok (mkmat P (mcols X))).
  { unfold P, np_array_rows. inversion FP as [|? ? Hp0 Hpts]; subst.
    replace (forallb _ _) with true; [now rewrite Hp0|]. symmetry. apply forallb_forall. intros y I. apply Nat.eqb_eq. rewrite Forall_forall in FP.
    rewrite (FP y I). now rewrite (FP p0 (or_introl eq_refl)). }
  assert (FX : fits "matern52" (A2 NumR X) (mcols X)) by (split; [exact WF|split; [discriminate|reflexivity]]).
  assert (FXs : fits "matern52" (A2 NumR (mkmat P (mcols X))) (mcols X)).
  { split; [|split; [discriminate|reflexivity]]. intros r I. rewrite Forall_forall in FP. exact (FP r I). }
  assert (HY : column (alen (A2 NumR X)) (to_column NumR Yn)).
  { split; [reflexivity|]. split; [cbn; rewrite map_length; exact (eq_trans LN (eq_sym LY))|]. intros r I. apply in_map_iff in I as (y & <- & _). reflexivity. }
  destruct (@predict_opt_real "matern52" _ _ (mcols X) _ "BFGS" true FX FXs HY (or_introl eq_refl)) as (mu & sd & Sg & EP & Smu & SS).
  assert (LM : List.length (map (hd (nofZ NumR 0)) mu) = S (List.length pts)) by (rewrite map_length; exact (proj1 Smu)).
  assert (LAD : exists w', sample_ladder NumR mvn rvs lae (map (hd (nofZ NumR 0)) mu) Sg (list_jitters NumR) w1
    = (w', [TsDraw v], Ok (V2 (mkmat [v] (S (List.length pts)))))).
  { unfold list_jitters. cbn [sample_ladder]. unfold sample_functions. unfold bind, lift, ext. rewrite LM.
    rewrite (@has_shape_mx (S (List.length pts)) (S (List.length pts))) by (apply jitter_mx; exact SS). cbn [assert_].
    match goal with |- context [mvn ?a ?b ?c] => destruct (HV a b c LM) as (w2 & g & -> & HR) end.
    unfold draws. change (seq 0 (Z.to_nat 1)) with [0%nat]. cbn [mmapM]. unfold draw, bind, ret.
    destruct (HR w2) as (w3 & ->). unfold np_stack. replace (Nat.eqb (S (List.length pts)) 1) with false by (symmetry; apply Nat.eqb_neq; lia).
    exists w3. reflexivity. }
  destruct LAD as (w' & LAD). exists w'.
  unfold ts_iteration. unfold bind, lift, points at 1. cbv beta.
  rewrite LY, LR, !Nat.eqb_refl. cbn [assert_]. rewrite EN, (default_bo_ok OKR), EG. cbn [app].
  unfold P at 1. cbv iota. fold P. rewrite EX. rewrite EP. rewrite LAD.
  destruct v as [|v0 v]; [now contradiction NE|]. reflexivity.
Qed.
End Real.
