(** Properties of the predictions, in terms of the returned arrays. *)
From Verif Require Import Base Num UtilsSpec HypsModel CovModel KernelSpec CovSpec PSD CovProofs CovProofs2 RStruct MatLib GPModel GPSpec GPProofs GPMx GPProofs2.
From Coq Require Import Reals Lra Lia Permutation.
From mathcomp Require Import all_ssreflect perm all_algebra.
Set Implicit Arguments.
Unset Strict Implicit.
Unset Printing Implicit Defensive.
Import GRing.Theory.
Delimit Scope R_scope with coqR.
Local Open Scope ring_scope.

Lemma diag_bound name X d ls s K i : fits name X d -> cov_of name ls s d = Some K -> lt i (alen X) ->
  K (elem_nth X i) (elem_nth X i) <=R (s * s)%coqR.
Proof.
move=> [W F]. rewrite /cov_of. case P: (profile_of name) => [p|].
  move=> [<-] _. by have [_ H] := base_kernel_bounds0 ls s d (point (elem_nth X i)) (point (elem_nth X i)) P.
case Q: (set_profile_of name) => [q|] // [<-]. case: X W F => [x|l sz dd] W F Hi; first by case: F => [[]].
case: F => [_ [_ Sz]]. have Hi' : lt i (List.length l) by exact Hi. rewrite elem_nth_set //=.
have [Wm [Nm _]] : mat_wf (List.nth i l (mkmat [::] 0)) /\ nrows (List.nth i l (mkmat [::] 0)) = sz /\ mcols (List.nth i l (mkmat [::] 0)) = dd.
  by apply: W; apply: List.nth_In.
set e := mrows _.
have N : e <> [::] by rewrite /nrows -/e in Nm => E; rewrite E /= in Nm; move: Sz; rewrite -Nm => /ltP.
have [b B] : exists b, profile_of b = Some q.
  have [_ [_ [_ [_ [b [_ Hb]]]]]] := set_profile Q. by exists b.
by have [_ H] := @set_average_bounds _ (base_kernel q ls s d) e e 0%coqR (s * s)%coqR N N (fun x y => base_kernel_bounds0 ls s d x y B).
Qed.

Section Props.
Variables (name : string) (h : dict NumR) (d : nat) (ls : pyval NumR) (s nz : R) (K : elem -> elem -> R)
  (pm : prior NumR) (m : elem -> R) (inv : list (list R) -> res (list (list R))).
Hypotheses (RG : regression name h d ls s nz K pm m) (HI : inv_contract inv).
Notation predict := (@predict_with_hyps NumR exp inv).

Lemma posterior_definite X Xs Y : fits name X d -> fits name Xs d -> column (alen X) Y ->
  exists mu sd S, predict X Y Xs h name pm = Ok (mu, sd, S) /\
    is_mx (alen Xs) 1 mu /\ is_mx (alen Xs) 1 sd /\ is_mx (alen Xs) (alen Xs) S /\
    CovSpec.symmetric (alen Xs) S /\ semidefinite (alen Xs) S /\ definite (alen Xs) S /\
    forall j, lt j (alen Xs) ->
      jitter_cov <=R at_ S j j /\ at_ S j j <=R (K (elem_nth Xs j) (elem_nth Xs j) + jitter_cov)%coqR /\
      (K (elem_nth Xs j) (elem_nth Xs j) <=R s * s)%coqR /\ at_ sd j 0 = sqrt (at_ S j j).
Proof.
move=> F Fs HY. have [mu [sd [S [E [Sm [Sd [SS [Vm [Vd VS]]]]]]]]] := predict_ok RG HI F Fs HY.
exists mu, sd, S. do 4 (split=> //).
have KS := K_sym RG. have KP := K_psd RG. have T := shift_pos nz.
have ES : mxof (alen Xs) (alen Xs) S = pcovmx K (alen X) (elem_nth X) (shift nz) (alen Xs) (elem_nth Xs) + jitter_cov%:M.
  apply/matrixP=> i j. rewrite mxE VS; try exact/ltP. rewrite !mxE eqb_ord. by case: (PeanoNat.Nat.eqb i j).
have PD : pd (mxof (alen Xs) (alen Xs) S).
  rewrite ES. apply: pd_shift; [exact: pcovmx_psd|exact: jitter_pos].
split.
  apply/symmetricP. rewrite ES trD tr_scalar_mx. congr (_ + _). apply/matrixP=> i j. rewrite !mxE. exact: pcov_sym.
split; first by apply/semidefiniteP; exact: pd_psdm.
split; first exact/definiteP.
move=> j Hj. have := VS j j Hj Hj. rewrite PeanoNat.Nat.eqb_refl => Ej.
have G := cov_diag_ge0 RG X (elem_nth Xs j).
have L : cov_at2 nz K X (elem_nth Xs j) (elem_nth Xs j) <=R K (elem_nth Xs j) (elem_nth Xs j).
  exact: (@pcov_le _ _ KS KP _ _ _ _ T).
move: Ej G L. move: (cov_at2 _ _ _ _ _) => p Ej G L.
split; first by rewrite Ej; toRs; lra. split; first by rewrite Ej; toRs; lra. split; last exact: Vd.
exact: (diag_bound Fs (reg_cov RG)).
Qed.

(** ** affine in the outputs; prior mean *)
Lemma mean_affine X Xs Y1 Y2 Y (a b : R) mu1 mu2 mu sd1 sd2 sd S1 S2 S : fits name X d -> fits name Xs d ->
  column (alen X) Y1 -> column (alen X) Y2 -> column (alen X) Y ->
  (a + b = 1)%coqR -> (forall i, lt i (alen X) -> out Y i = (a * out Y1 i + b * out Y2 i)%coqR) ->
  predict X Y1 Xs h name pm = Ok (mu1, sd1, S1) -> predict X Y2 Xs h name pm = Ok (mu2, sd2, S2) ->
  predict X Y Xs h name pm = Ok (mu, sd, S) ->
  (forall j, lt j (alen Xs) -> at_ mu j 0 = (a * at_ mu1 j 0 + b * at_ mu2 j 0)%coqR) /\ S = S1 /\ sd = sd1.
Proof.
move=> F Fs H1 H2 H AB V E1 E2 E.
have [m1 [d1 [s1 [E1' [A1 [B1 [C1 [M1 [D1 P1]]]]]]]]] := predict_ok RG HI F Fs H1.
have [m2 [d2 [s2 [E2' [A2 [B2 [C2 [M2 [D2 P2]]]]]]]]] := predict_ok RG HI F Fs H2.
have [m3 [d3 [s3 [E3' [A3 [B3 [C3 [M3 [D3 P3]]]]]]]]] := predict_ok RG HI F Fs H.
move: E1' E2' E3'. rewrite E1 E2 E => [[? ? ?] [? ? ?] [? ? ?]]; subst m1 d1 s1 m2 d2 s2 m3 d3 s3.
have SE : S = S1.
  apply: (@is_mx_eq (alen Xs) (alen Xs)) => // i j Hi Hj. by rewrite P1 // P3.
split; last split=> //.
- move=> j Hj. rewrite M1 // M2 // M3 // /mean_at.
  have -> : pmean0 K (alen X) (elem_nth X) (shift nz) (resid m X Y) (elem_nth Xs j)
      = pmean0 K (alen X) (elem_nth X) (shift nz) (fun i => a * resid m X Y1 i + b * resid m X Y2 i) (elem_nth Xs j).
    apply: pmean_ext => // i. rewrite /resid V; last exact/ltP. have -> : b = (1 - a)%coqR by lra.
    move: (out Y1 i) (out Y2 i) (m _) => *. toR. ring.
  rewrite pmean_lin. have -> : b = (1 - a)%coqR by lra.
  move: (pmean0 _ _ _ _ _ _) (pmean0 _ _ _ _ _ _) (m _) => *. toR. ring.
- apply: (@is_mx_eq (alen Xs) 1) => // i j Hi Hj. have -> : j = 0%N by lia. by rewrite D1 // D3 // SE.
Qed.
Lemma mean_prior X Xs Y mu sd S : fits name X d -> fits name Xs d -> column (alen X) Y ->
  (forall i, lt i (alen X) -> out Y i = m (elem_nth X i)) -> predict X Y Xs h name pm = Ok (mu, sd, S) ->
  forall j, lt j (alen Xs) -> at_ mu j 0 = m (elem_nth Xs j).
Proof.
move=> F Fs H V E j Hj. have [m1 [d1 [s1 [E1' [A1 [B1 [C1 [M1 [D1 P1]]]]]]]]] := predict_ok RG HI F Fs H.
move: E1'. rewrite E => [[? ? ?]]; subst m1 d1 s1. rewrite M1 // /mean_at pmean_zero; first exact: Rplus_0_l.
move=> i. rewrite /resid V; [exact: Rminus_diag_eq|exact/ltP].
Qed.

(** ** the order of the observations *)
Lemma perm_of (p : list nat) n : Permutation p (List.seq 0 n) ->
  List.length p = n /\ (forall k, List.In k p -> lt k n) /\ exists sg : 'S_n, forall i : 'I_n, List.nth i p 0%N = sg i.
Proof.
move=> P. have L : List.length p = n by rewrite (Permutation_length P) List.seq_length.
have I : forall k, List.In k p -> lt k n by move=> k /(Permutation_in _ P) /List.in_seq [].
have B : forall i : 'I_n, (List.nth i p 0%N < n)%N by move=> i; apply/ltP; apply: I; apply: List.nth_In; rewrite L; exact/ltP.
have ND : List.NoDup p by apply: (Permutation_NoDup (Permutation_sym P)); exact: List.seq_NoDup.
pose f (i : 'I_n) := Ordinal (B i).
have inj : injective f.
  move=> i j /(congr1 val) /= E. apply: val_inj => /=. move/(List.NoDup_nth p 0%N): ND => ND.
  apply: ND => //; rewrite L; exact/ltP.
split=> //. split=> //. exists (perm inj) => i. by rewrite permE.
Qed.
Lemma predict_perm X Xs Y p : fits name X d -> fits name Xs d -> column (alen X) Y -> Permutation p (List.seq 0 (alen X)) ->
  predict (take_rows X p) (take_out Y p) Xs h name pm = predict X Y Xs h name pm.
Proof.
move=> F Fs H P. have [L [I [sg Hs]]] := perm_of P.
have F' := fits_take I F. have LA : alen (take_rows X p) = alen X by rewrite alen_take.
have H' : column (alen (take_rows X p)) (take_out Y p) by rewrite alen_take; exact: column_take H.
have [m1 [d1 [s1 [E1 [A1 [B1 [C1 [M1 [D1 P1]]]]]]]]] := predict_ok RG HI F Fs H.
have [m2 [d2 [s2 [E2 [A2 [B2 [C2 [M2 [D2 P2]]]]]]]]] := predict_ok RG HI F' Fs H'.
rewrite E1 E2.
have EX : forall i : 'I_(alen X), elem_nth (take_rows X p) i = elem_nth X (sg i).
  by move=> i; rewrite elem_take // ?Hs // L; exact/ltP.
have ER : forall i : 'I_(alen X), resid m (take_rows X p) (take_out Y p) i = resid m X Y (sg i).
  move=> i. rewrite /resid EX out_take ?Hs // L. exact/ltP.
have KS := K_sym RG. have KP := K_psd RG. have T := shift_pos nz.
have SE : s2 = s1.
  apply: (@is_mx_eq (alen Xs) (alen Xs)) => // i j Hi Hj. rewrite P1 // P2 //. congr (_ + _).
  rewrite /cov_at2 LA. exact: (pcov_perm KP _ _ T EX).
congr (Ok (_, _, _)) => //.
- apply: (@is_mx_eq (alen Xs) 1) => // i j Hi Hj. have -> : j = 0%N by lia. rewrite M1 // M2 // /mean_at LA. congr (_ + _).
  exact: (pmean_perm KP _ T EX ER).
- apply: (@is_mx_eq (alen Xs) 1) => // i j Hi Hj. have -> : j = 0%N by lia. by rewrite D1 // D2 // SE.
Qed.

(** ** sub-batches of test points *)
Lemma predict_sub X Xs Y q mu sd S : fits name X d -> fits name Xs d -> column (alen X) Y ->
  (forall k, List.In k q -> lt k (alen Xs)) -> predict X Y Xs h name pm = Ok (mu, sd, S) ->
  exists mu' sd' S', predict X Y (take_rows Xs q) h name pm = Ok (mu', sd', S') /\
    is_mx (List.length q) 1 mu' /\ is_mx (List.length q) 1 sd' /\ is_mx (List.length q) (List.length q) S' /\
    (forall j, lt j (List.length q) -> at_ mu' j 0 = at_ mu (List.nth j q 0%N) 0 /\ at_ sd' j 0 = at_ sd (List.nth j q 0%N) 0) /\
    (forall j k, lt j (List.length q) -> lt k (List.length q) -> j = k \/ List.nth j q 0%N <> List.nth k q 0%N ->
       at_ S' j k = at_ S (List.nth j q 0%N) (List.nth k q 0%N)).
Proof.
move=> F Fs H I E. have F' := fits_take I Fs.
have [m1 [d1 [s1 [E1 [A1 [B1 [C1 [M1 [D1 P1]]]]]]]]] := predict_ok RG HI F Fs H.
have [m2 [d2 [s2 [E2 [A2 [B2 [C2 [M2 [D2 P2]]]]]]]]] := predict_ok RG HI F F' H.
move: E1. rewrite E => [[? ? ?]]; subst m1 d1 s1. rewrite alen_take in A2 B2 C2 M2 D2 P2.
have B : forall j, lt j (List.length q) -> lt (List.nth j q 0%N) (alen Xs) by move=> j Hj; apply: I; apply: List.nth_In.
have SE : forall j k, lt j (List.length q) -> lt k (List.length q) -> j = k \/ List.nth j q 0%N <> List.nth k q 0%N ->
       at_ s2 j k = at_ S (List.nth j q 0%N) (List.nth k q 0%N).
  move=> j k Hj Hk JK. rewrite P1; try exact: B. rewrite P2 // !elem_take //. congr (_ + _).
  case: JK => [->|N]; first by rewrite !PeanoNat.Nat.eqb_refl.
  case: (PeanoNat.Nat.eqb_spec j k) => [JK|_]; first by exfalso; apply: N; rewrite JK.
  by case: (PeanoNat.Nat.eqb_spec (List.nth j q 0%N) (List.nth k q 0%N)).
exists m2, d2, s2. do 4 (split=> //). split=> // j Hj. split.
- rewrite M2 // M1; last exact: B. by rewrite elem_take.
- rewrite D2 // D1; last exact: B. congr sqrt. by apply: SE => //; left.
Qed.

(** ** residuals at the training inputs *)
Lemma predict_train X Y mu sd S C B : fits name X d -> column (alen X) Y -> predict X Y X h name pm = Ok (mu, sd, S) ->
  @get_kernel_inverse NumR exp inv X h name true false = Ok (C, B, None) ->
  (forall i, lt i (alen X) -> (out Y i - at_ mu i 0
     = (nz * nz + jitter_cov) * Rsum (List.map (fun j => at_ B i j * (out Y j - m (elem_nth X j))) (List.seq 0 (alen X))))%coqR) /\
  (Rsum (List.map (fun i => (out Y i - at_ mu i 0) * (out Y i - at_ mu i 0)) (List.seq 0 (alen X)))
     <= Rsum (List.map (fun i => (out Y i - m (elem_nth X i)) * (out Y i - m (elem_nth X i))) (List.seq 0 (alen X))))%coqR.
Proof.
move=> F H E EI. have [m1 [d1 [s1 [E1 [A1 [B1 [C1 [M1 [D1 P1]]]]]]]]] := predict_ok RG HI F F H.
move: E1. rewrite E => [[? ? ?]]; subst m1 d1 s1.
have [C0 [B0 [EI' [EC [SC [HB _]]]]]] := inverse_ok F (reg_hyps RG) (reg_cov RG) HI.
move: EI'. rewrite EI => [[? ?]]; subst C0 B0. have EB := inverse_mx F (reg_hyps RG) (reg_cov RG) EC HB.
have KS := K_sym RG. have KP := K_psd RG. have T := shift_pos nz.
have V : forall i : 'I_(alen X), (out Y i - at_ mu i 0)%coqR
   = shift nz * (invmx (gram K (alen X) (elem_nth X) (shift nz)) *m colof (alen X) (resid m X Y)) i 0.
  move=> i. rewrite M1; last exact/ltP. rewrite -(@pmean_train _ _ KS KP _ _ _ _ i T) /mean_at /resid.
  move: (out Y i) (m _) (pmean0 _ _ _ _ _ _) => *. toR. ring.
split.
- move=> i /ltP Hi. rewrite (V (Ordinal Hi)) -EB. have -> : shift nz = (nz * nz + jitter_cov)%coqR by rewrite /shift /jitter_cov Rplus_comm.
  congr (_ * _). rewrite mxE Rsum_big. by apply: eq_bigr => j _; rewrite !mxE.
- have := @resid_norm _ _ KS KP (alen X) (elem_nth X) (shift nz) (resid m X Y) T. rewrite !dotE !Rsum_big. congr (_ <=R _).
  + apply: eq_bigr => i _. by rewrite V mxE.
  + apply: eq_bigr => i _. by rewrite mxE.
Qed.

(** ** more observations *)
Lemma predict_more X X' Xs Y Y' mu sd S mu' sd' S' E : fits name X d -> fits name X' d -> fits name Xs d ->
  column (alen X) Y -> column (alen X') Y' -> elems X' = elems X ++ E ->
  predict X Y Xs h name pm = Ok (mu, sd, S) -> predict X' Y' Xs h name pm = Ok (mu', sd', S') ->
  forall j, lt j (alen Xs) -> at_ sd' j 0 <=R at_ sd j 0.
Proof.
move=> F F' Fs H H' EX E1 E2 j Hj.
have [m1 [d1 [s1 [E1' [A1 [B1 [C1 [M1 [D1 P1]]]]]]]]] := predict_ok RG HI F Fs H.
have [m2 [d2 [s2 [E2' [A2 [B2 [C2 [M2 [D2 P2]]]]]]]]] := predict_ok RG HI F' Fs H'.
move: E1' E2'. rewrite E1 E2 => [[? ? ?] [? ? ?]]; subst m1 d1 s1 m2 d2 s2.
rewrite D1 // D2 //. apply: sqrt_le_1_alt. rewrite P1 // P2 // PeanoNat.Nat.eqb_refl. apply: Rplus_le_compat_r.
have LE : forall Z, List.length (elems Z) = alen Z by move=> [x|l0 s0 d0] /=; rewrite List.map_length.
have LX : alen X' = (alen X + List.length E)%N.
  rewrite -!LE EX. have := List.app_length (elems X) E. by [].
have KS := K_sym RG. have KP := K_psd RG. have T := shift_pos nz.
rewrite /cov_at2 LX. apply: Rle_trans; first exact: (@pcov_more _ _ KS KP _ _ _ _ _ T).
right. apply: pcov_ext => i. rewrite /elem_nth EX. have := @List.app_nth1 _ (elems X) E (EPoint [::]) i. apply.
rewrite LE. exact/ltP.
Qed.
End Props.

(** prediction with a prior mean equals prediction with the zero prior on the centred outputs plus the prior mean *)
Lemma predict_centred name h d ls s nz K pm m inv X Xs Y Y0 mu sd S mu0 sd0 S0 :
  regression name h d ls s nz K pm m -> inv_contract inv -> fits name X d -> fits name Xs d ->
  column (alen X) Y -> column (alen X) Y0 ->
  (forall i, lt i (alen X) -> out Y0 i = (out Y i - m (elem_nth X i))%coqR) ->
  @predict_with_hyps NumR exp inv X Y Xs h name pm = Ok (mu, sd, S) ->
  @predict_with_hyps NumR exp inv X Y0 Xs h name None = Ok (mu0, sd0, S0) ->
  (forall j, lt j (alen Xs) -> at_ mu j 0 = (at_ mu0 j 0 + m (elem_nth Xs j))%coqR) /\ S = S0 /\ sd = sd0.
Proof.
move=> RG HI F Fs H H0 V E E0.
have RG0 : regression name h d ls s nz K None (fun _ => 0%coqR).
  by case: RG => A B _; split.
have [m1 [d1 [s1 [E1' [A1 [B1 [C1 [M1 [D1 P1]]]]]]]]] := predict_ok RG HI F Fs H.
have [m2 [d2 [s2 [E2' [A2 [B2 [C2 [M2 [D2 P2]]]]]]]]] := predict_ok RG0 HI F Fs H0.
move: E1' E2'. rewrite E E0 => [[? ? ?] [? ? ?]]; subst m1 d1 s1 m2 d2 s2.
have SE : S = S0 by apply: (@is_mx_eq (alen Xs) (alen Xs)) => // i j Hi Hj; rewrite P1 // P2.
split; last split=> //.
- move=> j Hj. rewrite M1 // M2 // /mean_at.
  rewrite (@pmean_ext _ _ _ _ (elem_nth X) _ (resid (fun=> 0%coqR) X Y0) (resid m X Y)) //; last first.
    move=> i. rewrite /resid V; last exact/ltP. move: (out Y i) (m _) => *. toR. ring.
  move: (pmean0 _ _ _ _ _ _) (m _) => *. toR. ring.
- apply: (@is_mx_eq (alen Xs) 1) => // i j Hi Hj. have -> : j = 0%N by lia. by rewrite D1 // D2 // SE.
Qed.

(** ** Student-t process *)
Lemma tp_predict_ok name h d ls s nz K pm m inv nu X Xs Y :
  regression name h d ls s nz K pm m -> inv_contract inv -> fits name X d -> fits name Xs d -> column (alen X) Y ->
  dget h "dof" = Some (PFloat NumR nu) ->
  exists mu sd S B C sd' S', let beta := beta_of m X Y B in
    let factor := t_factor nu beta (alen X) in
    @get_kernel_inverse NumR exp inv X h name true false = Ok (C, B, None) /\
    @predict_with_hyps NumR exp inv X Y Xs h name pm = Ok (mu, sd, S) /\
    @tp_predict_with_hyps NumR exp inv X Y Xs h name pm = Ok ((nu + INR (alen X))%coqR, mu, sd', S') /\
    is_mx (alen Xs) 1 sd' /\ is_mx (alen Xs) (alen Xs) S' /\
    0 <=R beta /\
    (forall j k, lt j (alen Xs) -> lt k (alen Xs) -> at_ S' j k = (factor * at_ S j k)%coqR) /\
    (forall j, lt j (alen Xs) -> at_ sd' j 0 = sqrt (Rmax (at_ S' j j) 0)).
Proof.
move=> RG HI F Fs HY ND. have [CK [_ VA]] := fits_shape_pair F Fs.
have [C [B [EI [EC [SC [HB _]]]]]] := inverse_ok F (reg_hyps RG) (reg_cov RG) HI.
have [r [mu [S [EP [Sr [Sm [SS [Vr [Vm VS]]]]]]]]] := posterior_mx RG F Fs HY EC HB.
have EB := inverse_mx F (reg_hyps RG) (reg_cov RG) EC HB.
set b := mget NumR (mdot NumR 1 (alen X) 1 (mdot NumR 1 (alen X) (alen X) (mtr NumR (alen X) 1 r) B) r) 0 0.
set f := t_factor nu b (alen X).
exists mu, (deviations NumR (alen Xs) S), S, B, C,
  (deviations NumR (alen Xs) (mmap NumR (fun v => nmul NumR f v) S)), (mmap NumR (fun v => nmul NumR f v) S).
have Eb' : b = ((colof (alen X) (resid m X Y))^T *m mxof (alen X) (alen X) B *m colof (alen X) (resid m X Y)) 0 0.
  rewrite /b -at_mget mdot_at; try lia. rewrite /prod_at Rsum_big mxE. apply: eq_bigr => j _.
  rewrite [colof _ _ j 0]mxE -Vr; last exact/ltP. congr (_ * _). rewrite mdot_at; [|lia|exact/ltP]. rewrite /prod_at Rsum_big mxE.
  apply: eq_bigr => i _. rewrite mtr_at; [|lia|exact/ltP]. rewrite Vr; last exact/ltP. by rewrite !mxE.
have Eb : b = beta_of m X Y B.
  rewrite Eb' bil /beta_of Rsum_big. apply: eq_bigr => i _. rewrite Rsum_big. apply: eq_bigr => j _. by rewrite !mxE.
have SM : is_mx (alen Xs) (alen Xs) (mmap NumR (fun v => nmul NumR f v) S) by exact: (@CovMx.shp_mmap NumR).
have Enu : nofnat NumR (alen X) = INR (alen X) by rewrite /nofnat /= INR_IZR_INZ.
rewrite /= -Eb -/f. split=> //. split; first by rewrite /predict_with_hyps (VA Y HY) /= CK /= EI /= /predict_with_cov EP.
split.
  rewrite /tp_predict_with_hyps (VA Y HY) /= CK /= EI /= /tp_predict_with_cov EP /= /dfloat ND /= -/b. by rewrite -INR_IZR_INZ.
split; first exact: dev_mx. split=> //. split.
  rewrite Eb' EB. exact: (@beta_ge0 _ _ (K_sym RG) (K_psd RG) _ _ _ _ (shift_pos nz)).
split=> [j k Hj Hk|j Hj]; last exact: dev_at.
exact: (@CovMx.mget_mmap NumR (alen Xs) (alen Xs)).
Qed.
