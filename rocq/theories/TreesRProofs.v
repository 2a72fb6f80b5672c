(** Predictions of trees and forests in exact arithmetic; parallel prediction. *)
From Verif Require Import Base Lists Num NumLaws NumFin Monad UtilsSpec UtilsRProofs TreesModel TreesSpec TreesProofs.
From Coq Require Import List ZArith Bool Arith Permutation Reals Lra Lia.
From Flocq Require Import Core.Raux.
Set Implicit Arguments. Unset Strict Implicit.
Local Open Scope R_scope.

(** ** averages *)

Lemma len_pos {A} (l : list A) : l <> [] -> 0 < INR (List.length l).
Proof. intros H. apply lt_0_INR. destruct l; [congruence|cbn; lia]. Qed.

Section Avg.
Context {A : Type}.
Implicit Types (f g : A -> R) (l : list A).

Lemma Ravg_ext f g l : (forall x, In x l -> f x = g x) -> Ravg f l = Ravg g l.
Proof. intros H. unfold Ravg. now rewrite (map_ext_in f g l H). Qed.
Lemma Ravg_plus f g l : Ravg (fun x => f x + g x) l = Ravg f l + Ravg g l.
Proof. unfold Ravg. rewrite Rsum_map_plus. unfold Rdiv. ring. Qed.
Lemma Ravg_scal c f l : Ravg (fun x => c * f x) l = c * Ravg f l.
Proof. unfold Ravg. rewrite Rsum_map_scal. unfold Rdiv. ring. Qed.
Lemma Ravg_const c l : l <> [] -> Ravg (fun _ => c) l = c.
Proof. intros H. apply len_pos in H. unfold Ravg. rewrite Rsum_const. field. lra. Qed.
Lemma Ravg_nonneg f l : (forall x, In x l -> 0 <= f x) -> 0 <= Ravg f l.
Proof.
  intros H. destruct l as [|a l]; [unfold Ravg; cbn; lra|]. assert (L : 0 < INR (List.length (a :: l))) by (apply len_pos; discriminate).
  unfold Ravg. apply Rmult_le_pos; [now apply Rsum_map_nonneg|]. left. now apply Rinv_0_lt_compat.
Qed.
Lemma Ravg_le f g l : (forall x, In x l -> f x <= g x) -> Ravg f l <= Ravg g l.
Proof.
  intros H. assert (E : Ravg g l = Ravg f l + Ravg (fun x => g x - f x) l).
  { rewrite <- Ravg_plus. apply Ravg_ext. intros. lra. }
  assert (0 <= Ravg (fun x => g x - f x) l); [|lra]. apply Ravg_nonneg. intros x Hx. specialize (H x Hx). lra.
Qed.
Lemma Ravg_bounds f l a b : l <> [] -> (forall x, In x l -> a <= f x <= b) -> a <= Ravg f l <= b.
Proof.
  intros N H. rewrite <- (Ravg_const a N) at 1. rewrite <- (Ravg_const b N). split; apply Ravg_le; intros x Hx; apply H, Hx.
Qed.
Lemma Ravg_zero f l : l <> [] -> (forall x, In x l -> 0 <= f x) -> Ravg f l = 0 -> forall x, In x l -> f x = 0.
Proof.
  intros N H E. apply len_pos in N. unfold Ravg in E. apply Rsum_zero_all; [exact H|].
  apply Rmult_eq_reg_r with (/ INR (List.length l)); [rewrite Rmult_0_l; exact E|]. apply Rinv_neq_0_compat. lra.
Qed.
(** second moment about c = spread about the mean + squared distance of the mean *)
Lemma Ravg_moment f l c : l <> [] -> let m := Ravg f l in
  Ravg (fun x => (f x - c)²) l = Ravg (fun x => (f x - m)²) l + (m - c)².
Proof.
  intros N m.
  assert (E : Ravg (fun x => (f x - c)²) l = Ravg (fun x => (f x - m)²) l + Ravg (fun x => 2 * (m - c) * f x + (- (2 * (m - c) * m) + (m - c)²)) l).
  { rewrite <- Ravg_plus. apply Ravg_ext. intros x _. unfold Rsqr. ring. }
  rewrite E, Ravg_plus, Ravg_scal, Ravg_const by exact N. fold m. unfold Rsqr. ring.
Qed.
End Avg.

Lemma nmean_Ravg (l : list R) : nmean NumR l = Ravg (fun x => x) l.
Proof. rewrite nmean_R. unfold Ravg. now rewrite map_id. Qed.
Lemma nmean_map {A} (f : A -> R) (l : list A) : nmean NumR (map f l) = Ravg f l.
Proof. rewrite nmean_R. unfold Ravg. now rewrite map_length. Qed.

Lemma nstd0_R (l : list R) : l <> [] -> 0 <= nstd NumR 0 l /\ (nstd NumR 0 l)² = Ravg (fun x => (x - Ravg (fun x => x) l)²) l.
Proof.
  intros N. unfold nstd. cbn [nsqrt ndiv nofZ NumR]. rewrite nsum_R, nmean_Ravg. split; [apply sqrt_pos|].
  rewrite minus_IZR, <- !INR_IZR_INZ. change (INR 0) with 0. rewrite Rminus_0_r.
  rewrite Rsqr_sqrt; [reflexivity|]. apply Rmult_le_pos; [|left; apply Rinv_0_lt_compat, len_pos, N].
  apply Rsum_map_nonneg. intros x _. apply Rle_0_sqr.
Qed.

(** ** one leaf *)
Lemma sq_le_half a b x : a <= x <= b -> (x - (a + b) / 2)² <= ((b - a) / 2)².
Proof. intros H. apply Rsqr_le_abs_1. unfold Rabs. destruct (Rcase_abs _), (Rcase_abs _); lra. Qed.

Lemma leaf_pred (l : list R) a b : l <> [] -> (forall y, In y l -> a <= y <= b) ->
  a <= nmean NumR l <= b /\ 0 <= nstd NumR 0 l /\ (nmean NumR l - (a + b) / 2)² + (nstd NumR 0 l)² <= ((b - a) / 2)².
Proof.
  intros N H. rewrite nmean_Ravg. split; [now apply Ravg_bounds|]. destruct (nstd0_R N) as (P & E). split; [exact P|].
  rewrite E, Rplus_comm, <- (Ravg_moment (fun x => x) ((a + b) / 2) N).
  rewrite <- (Ravg_const (((b - a) / 2)²) N). apply Ravg_le. intros x Hx. apply sq_le_half, H, Hx.
Qed.

(** ** compute_sigma *)
Lemma npmax2_R (a b : R) : npmax2 NumR a b = Rmax a b.
Proof.
  unfold npmax2. cbn [nisnan nlt NumR]. unfold Rmax. destruct (Rlt_bool_spec a b), (Rle_dec a b); try reflexivity; lra.
Qed.

Lemma combine_map_r {A B C} (f : B -> C) : forall (l : list A) (l' : list B),
  combine l (map f l') = map (fun p => (fst p, f (snd p))) (combine l l').
Proof. induction l as [|x l IH]; intros [|y l']; cbn; auto. now rewrite IH. Qed.
Lemma Ravg_combine_l {A B} (f : A -> R) : forall (l : list A) (l' : list B), List.length l = List.length l' ->
  Ravg (fun p => f (fst p)) (combine l l') = Ravg f l.
Proof.
  intros l l' E. unfold Ravg. rewrite combine_length, <- E, Nat.min_id. f_equal. f_equal.
  revert l' E. induction l as [|x l IH]; intros [|y l'] E; try discriminate; [reflexivity|]. cbn. f_equal. apply IH. now inversion E.
Qed.
Lemma Ravg_combine_r {A B} (f : B -> R) : forall (l : list A) (l' : list B), List.length l = List.length l' ->
  Ravg (fun p => f (snd p)) (combine l l') = Ravg f l'.
Proof.
  intros l l' E. unfold Ravg. rewrite combine_length, E, Nat.min_id. f_equal. f_equal.
  revert l' E. induction l as [|x l IH]; intros [|y l'] E; try discriminate; [reflexivity|]. cbn. f_equal. apply IH. now inversion E.
Qed.

Definition mixture_var (mus sigmas : list R) (m : R) : R :=
  Ravg (fun s => (Rmax s m)²) sigmas + Ravg (fun mu => (mu - Ravg (fun u => u) mus)²) mus.
Lemma mixture_var_nonneg mus sigmas m : 0 <= mixture_var mus sigmas m.
Proof.
  assert (0 <= Ravg (fun s => (Rmax s m)²) sigmas) by (apply Ravg_nonneg; intros; apply Rle_0_sqr).
  assert (0 <= Ravg (fun mu => (mu - Ravg (fun u => u) mus)²) mus) by (apply Ravg_nonneg; intros; apply Rle_0_sqr).
  unfold mixture_var. lra.
Qed.

(** the value before the clamp *)
Definition sigma_unclamped (mus sigmas : list R) (m : R) : R :=
  nsub NumR (nmean NumR (map (fun p => nadd NumR (nsq NumR (fst p)) (nsq NumR (snd p))) (combine (mus : list NumR) (map (fun s => npmax2 NumR s (nadd NumR (nofZ NumR 0) m)) sigmas))))
    (nsq NumR (nmean NumR mus)).

Lemma sigma_unclamped_eq mus sigmas m : mus <> [] -> List.length mus = List.length sigmas ->
  sigma_unclamped mus sigmas m = mixture_var mus sigmas m.
Proof.
  intros N L. unfold sigma_unclamped. rewrite nmean_map, nmean_Ravg, combine_map_r. cbn [nsub nadd nofZ NumR].
  change (Ravg (fun p : R * R => (fst p)² + (snd p)²) (map (fun p : R * R => (fst p, npmax2 NumR (snd p) (0 + m))) (combine mus sigmas)) - (Ravg (fun x => x) mus)²
          = mixture_var mus sigmas m).
  assert (E : forall (g : R * R -> R) h l, Ravg g (map h l) = Ravg (fun p : R * R => g (h p)) l).
  { intros. unfold Ravg. now rewrite map_map, map_length. }
  rewrite E. cbn [fst snd]. rewrite Ravg_plus, (Ravg_combine_l (fun u => u²) L), (@Ravg_combine_r R R (fun s : R => (npmax2 NumR s (0 + m) : R)²) mus sigmas L).
  unfold mixture_var. assert (M := @Ravg_moment R (fun x => x) mus 0 N). cbn zeta in M.
  rewrite (@Ravg_ext R (fun x => (x - 0)²) (fun u => u²)) in M by (intros; now rewrite Rminus_0_r). rewrite Rminus_0_r in M. rewrite M.
  rewrite (@Ravg_ext R (fun s => (npmax2 NumR s (0 + m))²) (fun s => (Rmax s m)²)) by (intros; now rewrite npmax2_R, Rplus_0_l).
  ring.
Qed.

Lemma compute_sigma_eq (mus sigmas : list R) m : mus <> [] -> List.length mus = List.length sigmas ->
  compute_sigma NumR mus sigmas m = Ok (mixture_sigma mus sigmas m).
Proof.
  intros N L. unfold compute_sigma. apply Nat.eqb_eq in L. change (List.length (mus : list NumR) =? List.length (sigmas : list NumR))%nat with (List.length mus =? List.length sigmas)%nat. rewrite L. apply Nat.eqb_eq in L. cbn [assert_ rbind].
  destruct mus as [|u us] eqn:E; [congruence|]. rewrite <- E in *. f_equal.
  change (sqrt (if Rlt_bool (sigma_unclamped mus sigmas m) 0 then 0 else sigma_unclamped mus sigmas m) = mixture_sigma mus sigmas m).
  rewrite sigma_unclamped_eq by assumption. assert (P := mixture_var_nonneg mus sigmas m).
  rewrite Rlt_bool_false by exact P. reflexivity.
Qed.

Lemma mixture_ge mus sigmas m : mus <> [] -> List.length mus = List.length sigmas -> 0 <= m -> m <= mixture_sigma mus sigmas m.
Proof.
  intros N L M. unfold mixture_sigma. apply Rle_trans with (sqrt (m²)); [rewrite sqrt_Rsqr; lra|]. apply sqrt_le_1_alt.
  assert (0 <= Ravg (fun mu => (mu - Ravg (fun u => u) mus)²) mus) by (apply Ravg_nonneg; intros; apply Rle_0_sqr).
  assert (m² <= Ravg (fun s => (Rmax s m)²) sigmas); [|lra].
  assert (NS : sigmas <> []) by (intros ->; destruct mus; [congruence|discriminate L]).
  rewrite <- (Ravg_const (m²) NS) at 1. apply Ravg_le. intros x _. apply Rsqr_incr_1; [apply Rmax_r|exact M|]. apply Rle_trans with m; [exact M|apply Rmax_r].
Qed.

Lemma mixture_zero mus sigmas m : mus <> [] -> List.length mus = List.length sigmas ->
  (mixture_sigma mus sigmas m = 0 <-> (forall s, In s sigmas -> Rmax s m = 0) /\ (forall u v, In u mus -> In v mus -> u = v)).
Proof.
  intros N L. assert (NS : sigmas <> []) by (intros ->; destruct mus; [congruence|discriminate L]).
  assert (P1 : 0 <= Ravg (fun s => (Rmax s m)²) sigmas) by (apply Ravg_nonneg; intros; apply Rle_0_sqr).
  assert (P2 : 0 <= Ravg (fun mu => (mu - Ravg (fun u => u) mus)²) mus) by (apply Ravg_nonneg; intros; apply Rle_0_sqr).
  unfold mixture_sigma. split.
  - intros E. apply sqrt_eq_0 in E; [|lra]. assert (E1 : Ravg (fun s => (Rmax s m)²) sigmas = 0) by lra.
    assert (E2 : Ravg (fun mu => (mu - Ravg (fun u => u) mus)²) mus = 0) by lra. split.
    + intros s Hs. apply Rsqr_0_uniq. apply (@Ravg_zero R (fun s => (Rmax s m)²) sigmas NS (fun x _ => Rle_0_sqr _) E1 s Hs).
    + intros u v Hu Hv.
      assert (Z := @Ravg_zero R _ mus N (fun x _ => Rle_0_sqr _) E2). pose proof (Rsqr_0_uniq _ (Z u Hu)). pose proof (Rsqr_0_uniq _ (Z v Hv)). lra.
  - intros (Hs & Hu). destruct mus as [|u us] eqn:EM; [congruence|]. rewrite <- EM in *.
    assert (A : Ravg (fun x => x) mus = u).
    { rewrite (@Ravg_ext R (fun x => x) (fun _ => u)); [now apply Ravg_const|]. intros x Hx. apply Hu; [exact Hx|rewrite EM; now left]. }
    rewrite (@Ravg_ext R (fun s => (Rmax s m)²) (fun _ => 0)) by (intros x Hx; rewrite (Hs x Hx); apply Rsqr_0).
    rewrite (@Ravg_ext R (fun mu => (mu - Ravg (fun u => u) mus)²) (fun _ => 0)).
    + rewrite !Ravg_const by assumption. rewrite Rplus_0_r. apply sqrt_0.
    + intros x Hx. rewrite A, (Hu x u Hx); [unfold Rsqr; ring|rewrite EM; now left].
Qed.

(** ** forests *)
(** a tree whose leaves hold responses in [a, b] *)
Definition leaves_between (a b : R) (t : tree NumR) : Prop :=
  forall l, In l (leaves NumR t) -> l <> [] /\ forall r, In r l -> a <= snd r <= b.

Lemma tree_pred a b t x p : leaves_between a b t -> predict_by_tree NumR x t = Ok p ->
  a <= fst p <= b /\ 0 <= snd p /\ (fst p - (a + b) / 2)² + (snd p)² <= ((b - a) / 2)².
Proof.
  intros H. induction t as [l|i v t1 IH1 t2 IH2].
  - destruct (H l (or_introl eq_refl)) as (N & B). intros K.
    assert (E : Ok (nmean NumR (map snd l), nstd NumR 0 (map snd l)) = Ok p) by (destruct l; [congruence|exact K]).
    apply Ok_inj in E. subst p.
    assert (NL : map snd l <> []) by (destruct l; [congruence|discriminate]).
    cbn [fst snd]. apply (@leaf_pred (map snd l) a b NL). intros y Hy. apply in_map_iff in Hy. destruct Hy as (q & <- & Hq). now apply B.
  - cbn [predict_by_tree]. destruct (nth_error x i) as [c|]; [|discriminate]. destruct (nlt NumR c v); intros K;
      [apply IH1|apply IH2]; auto; intros l Hl; apply H; cbn [leaves]; apply in_or_app; auto.
Qed.

Lemma abs_le_of_sq x h : 0 <= h -> x² <= h² -> -h <= x <= h.
Proof. intros H E. apply Rsqr_le_abs_0 in E. rewrite (Rabs_pos_eq h H) in E. apply Rabs_le_inv, E. Qed.

Lemma forest_pred a b ts x p : (forall t, In t ts -> leaves_between a b t) -> predict_by_trees_one NumR x ts = Ok p ->
  a <= fst p <= b /\ 0 <= snd p <= (b - a) / 2.
Proof.
  intros H K. unfold predict_by_trees_one in K. destruct (mapM (predict_by_tree NumR x) ts) as [ps|] eqn:E; cbn [rbind] in K; [|discriminate].
  assert (B : forall q, In q ps -> a <= fst q <= b /\ 0 <= snd q /\ (fst q - (a + b) / 2)² + (snd q)² <= ((b - a) / 2)²).
  { intros q Hq. apply in_nth_error in Hq. destruct Hq as [k Hk]. apply mapM_ok_iff in E. destruct (Forall2_nth k E Hk) as (t & Ht & Et).
    eapply tree_pred; [|exact Et]. apply H. eapply nth_error_In; eauto. }
  destruct ps as [|q0 ps0] eqn:EP; [discriminate|]. rewrite <- EP in *. clear E.
  assert (N : ps <> []) by (rewrite EP; discriminate).
  assert (NM : map fst ps <> []) by (rewrite EP; discriminate).
  assert (LE : List.length (map fst ps) = List.length (map snd ps)) by now rewrite !map_length.
  rewrite (compute_sigma_eq _ NM LE) in K. cbn [rbind] in K. apply Ok_inj in K. subst p. cbn [fst snd].
  assert (HAB : a <= b) by (destruct (B q0); [rewrite EP; now left|lra]).
  rewrite nmean_map. split. { apply Ravg_bounds; [exact N|]. intros q Hq. apply (B q Hq). }
  split; [apply sqrt_pos|]. unfold mixture_sigma.
  apply Rle_trans with (sqrt (((b - a) / 2)²)); [|rewrite sqrt_Rsqr; lra]. apply sqrt_le_1_alt.
  assert (EM : forall (f : R -> R) (h : R * R -> R), Ravg f (map h ps) = Ravg (fun p => f (h p)) ps).
  { intros. unfold Ravg. now rewrite map_map, map_length. }
  rewrite !EM. rewrite (Ravg_ext (g := fun p => (snd p)²)).
  2:{ intros q Hq. rewrite Rmax_left; [reflexivity|]. apply (B q Hq). }
  assert (M := @Ravg_moment (R * R) fst ps ((a + b) / 2) N). cbn zeta in M.
  assert (S1 := Rle_0_sqr (Ravg fst ps - (a + b) / 2)).
  assert (S2 : Ravg (fun p => (fst p - (a + b) / 2)² + (snd p)²) ps <= ((b - a) / 2)²).
  { rewrite <- (Ravg_const (((b - a) / 2)²) N). apply Ravg_le. intros q Hq. apply (B q Hq). }
  rewrite Ravg_plus in S2. change (fun x0 : R * R => (fst x0 - (a + b) / 2)²) with (fun p : R * R => (fst p - (a + b) / 2)²) in *.
  rewrite M in S2. 
  set (V := Ravg (fun x : R * R => (fst x - Ravg fst ps)²) ps) in S2. set (D := (@Ravg (R * R) fst ps - (a + b) / 2)²) in S2.
  set (Q := Ravg (fun x : R * R => (snd x)²) ps) in S2. change (0 <= D) in S1. change (Q + V <= ((b - a) / 2)²). change (V + D + Q <= ((b - a) / 2)²) in S2. clearbody V D Q. lra.
Qed.
