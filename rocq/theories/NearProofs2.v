(** The bounds of [NearProofs] as the properties need them. *)
From Verif Require Import Base Num UtilsSpec HypsModel CovModel KernelSpec CovSpec CovProofs GPModel GPSpec GPProofs2 PredSpec PredProofs NearSpec NearProofs NearReal.
From Coq Require Import List Reals Lra Lia Arith String.
Import ListNotations.
Open Scope R_scope.
Set Implicit Arguments.
Unset Strict Implicit.
Unset Asymmetric Patterns.
Set Bullet Behavior "Strict Subproofs".

Section Near.
Variables (name : string) (h : dict NumR) (d : nat) (ls : pyval NumR) (s nz : R) (K : elem -> elem -> R) (pm : prior NumR) (m : elem -> R).
Variable inv : list (list R) -> res (list (list R)).
Hypotheses (RG : regression name h d ls s nz K pm m) (HI : inv_contract inv).
Variables (X Xs : arr NumR) (Y : mat NumR) (mu sd S : list (list R)).
Hypotheses (F : fits name X d) (Fs : fits name Xs d) (HY : column (alen X) Y).
Hypothesis (E : @predict_with_hyps NumR exp inv X Y Xs h name pm = Ok (mu, sd, S)).

Lemma near j e k : (j < alen Xs)%nat -> measured X e k -> (0 < k)%nat ->
  at_ S j j <= kernel_gap K e (elem_nth Xs j) + (nz * nz + jitter_cov) / INR k + jitter_cov.
Proof.
  intros Hj HM Hk. destruct (@best_linear name h d ls s nz K pm m inv RG HI X Xs j F Fs Hj) as [w [W [B _]]].
  destruct (W _ _ _ _ HY E) as [_ ES].
  destruct (@average_error K (nz * nz + jitter_cov) X e k (elem_nth Xs j) (fun a b => cov_of_sym a b (reg_cov RG)) HM Hk) as [u Eu].
  assert (L := B u). rewrite Eu in L. rewrite ES. lra.
Qed.
Lemma near_at j e k : (j < alen Xs)%nat -> elem_nth Xs j = e -> measured X e k -> (0 < k)%nat ->
  at_ S j j <= (nz * nz + jitter_cov) / INR k + jitter_cov.
Proof. intros Hj Ej HM Hk. assert (N := near Hj HM Hk). rewrite Ej in N. unfold kernel_gap in N. lra. Qed.
Lemma near_points j x y k : profile_of name <> None -> (j < alen Xs)%nat -> elem_nth Xs j = EPoint y -> measured X (EPoint x) k -> (0 < k)%nat ->
  let r := scaled_dist (ls_at ls) d x y in
  at_ S j j <= s * s * curvature name * (r * r) + (nz * nz + jitter_cov) / INR k + jitter_cov.
Proof.
  intros NP Hj Ej HM Hk r. destruct (profile_of name) as [p|] eqn:P; [|congruence]. assert (N := near Hj HM Hk).
  rewrite Ej in N. assert (G := @gap_points name p ls s d K x y P (reg_cov RG)). fold r in G. lra.
Qed.

Lemma noise_pos : 0 < nz * nz + jitter_cov.
Proof. assert (S0 := Rle_0_sqr nz). unfold Rsqr in S0. unfold jitter_cov. lra. Qed.
Lemma deviation_ge0 : 0 <= deviation_sq m X Y.
Proof. unfold deviation_sq. induction (seq 0 (alen X)) as [|i l IH]; cbn [map Rsum]; [lra|]. assert (Q := Rle_0_sqr (out Y i - m (elem_nth X i))). unfold Rsqr in Q. lra. Qed.
Lemma gap_ge0 e z : 0 <= kernel_gap K e z.
Proof.
  assert (P := cov_of_psd (reg_cov RG) [(1, e); (-1, z)]). unfold qform in P. cbn [map Rsum fst snd] in P.
  rewrite (cov_of_sym z e (reg_cov RG)) in P. unfold kernel_gap. lra.
Qed.
Lemma abs_le_sqrt e b : e * e <= b -> Rabs e <= sqrt b.
Proof. intros H. rewrite <- sqrt_Rsqr_abs. apply sqrt_le_1_alt. exact H. Qed.

Lemma mean_move j k : (j < alen Xs)%nat -> (k < alen Xs)%nat ->
  let zj := elem_nth Xs j in let zk := elem_nth Xs k in
  Rabs ((at_ mu j 0 - m zj) - (at_ mu k 0 - m zk)) <= sqrt (kernel_gap K zj zk * deviation_sq m X Y / (nz * nz + jitter_cov)).
Proof.
  intros Hj Hk zj zk. destruct (@move name h d ls s nz K pm m inv RG HI X Xs Y mu sd S j k F Fs HY E Hj Hk) as [A _].
  apply abs_le_sqrt. assert (P := noise_pos). fold zj zk in A. apply (Rmult_le_reg_l (nz * nz + jitter_cov)); [exact P|].
  replace ((nz * nz + jitter_cov) * (kernel_gap K zj zk * deviation_sq m X Y / (nz * nz + jitter_cov))) with (kernel_gap K zj zk * deviation_sq m X Y) by (field; lra).
  exact A.
Qed.
Lemma mean_size j : (j < alen Xs)%nat -> let z := elem_nth Xs j in
  Rabs (at_ mu j 0 - m z) <= sqrt (K z z * deviation_sq m X Y / (nz * nz + jitter_cov)).
Proof.
  intros Hj z. destruct (@move name h d ls s nz K pm m inv RG HI X Xs Y mu sd S j j F Fs HY E Hj Hj) as [_ [A _]].
  apply abs_le_sqrt. assert (P := noise_pos). fold z in A. apply (Rmult_le_reg_l (nz * nz + jitter_cov)); [exact P|].
  replace ((nz * nz + jitter_cov) * (K z z * deviation_sq m X Y / (nz * nz + jitter_cov))) with (K z z * deviation_sq m X Y) by (field; lra).
  exact A.
Qed.
Lemma sd_move j k : (j < alen Xs)%nat -> (k < alen Xs)%nat ->
  Rabs (at_ sd j 0 - at_ sd k 0) <= sqrt (kernel_gap K (elem_nth Xs j) (elem_nth Xs k)).
Proof.
  intros Hj Hk. destruct (@move name h d ls s nz K pm m inv RG HI X Xs Y mu sd S j k F Fs HY E Hj Hk) as [_ [_ A]].
  apply abs_le_sqrt. exact A.
Qed.
Lemma curvature_pos : 0 < curvature name.
Proof. unfold curvature. destruct (name =? "matern32")%string; [lra|]. destruct (name =? "matern52")%string; lra. Qed.
(** points: both are Lipschitz in the scaled distance *)
Lemma lipschitz j k x y : profile_of name <> None -> (j < alen Xs)%nat -> (k < alen Xs)%nat -> elem_nth Xs j = EPoint x -> elem_nth Xs k = EPoint y ->
  let r := scaled_dist (ls_at ls) d x y in let L := Rabs s * sqrt (curvature name) in
  Rabs ((at_ mu j 0 - m (EPoint x)) - (at_ mu k 0 - m (EPoint y))) <= L * sqrt (deviation_sq m X Y / (nz * nz + jitter_cov)) * r /\
  Rabs (at_ sd j 0 - at_ sd k 0) <= L * r.
Proof.
  intros NP Hj Hk Ej Ek r L. destruct (profile_of name) as [p|] eqn:P; [|congruence].
  assert (M := mean_move Hj Hk). assert (D := sd_move Hj Hk). rewrite Ej, Ek in M, D. cbv zeta in M.
  assert (G := @gap_points name p ls s d K x y P (reg_cov RG)). fold r in G. assert (Hr : 0 <= r) by apply sqrt_pos. assert (C := curvature_pos).
  assert (S2 : sqrt (s * s * curvature name * (r * r)) = L * r).
  { rewrite sqrt_mult; [|assert (Q := Rle_0_sqr s); unfold Rsqr in Q; apply Rmult_le_pos; lra|nra]. rewrite (sqrt_square r Hr). unfold L.
    rewrite sqrt_mult; [|assert (Q := Rle_0_sqr s); unfold Rsqr in Q; lra|lra]. fold (Rsqr s). now rewrite sqrt_Rsqr_abs. }
  assert (N0 := noise_pos). assert (D0 := deviation_ge0). assert (G0 := gap_ge0 (EPoint x) (EPoint y)).
  assert (Q0 : 0 <= deviation_sq m X Y / (nz * nz + jitter_cov)) by (apply Rmult_le_pos; [lra|]; left; now apply Rinv_0_lt_compat).
  split.
  - eapply Rle_trans; [exact M|]. unfold Rdiv. rewrite Rmult_assoc. fold (deviation_sq m X Y / (nz * nz + jitter_cov)).
    rewrite sqrt_mult by assumption. replace (L * sqrt (deviation_sq m X Y / (nz * nz + jitter_cov)) * r) with (L * r * sqrt (deviation_sq m X Y / (nz * nz + jitter_cov))) by ring.
    apply Rmult_le_compat_r; [apply sqrt_pos|]. rewrite <- S2. now apply sqrt_le_1_alt.
  - eapply Rle_trans; [exact D|]. rewrite <- S2. now apply sqrt_le_1_alt.
Qed.
End Near.
