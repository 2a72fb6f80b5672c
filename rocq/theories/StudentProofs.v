(** Student-t predictions: order of the observations, other test points, units of the coordinates, points far from the
    data, and one more observation. *)
From Verif Require Import Base Num UtilsSpec HypsModel CovModel KernelSpec CovSpec PSD CovProofs CovProofs2 RStruct MatLib GPModel GPSpec GPProofs GPMx GPProofs2 GPProofs3
  LikModel LikSpec LikMx LikProofs PredSpec PredMx PredProofs PredUnits PredInv PredLik.
From Coq Require Import Reals Lra Lia Permutation.
From mathcomp Require Import all_ssreflect perm all_algebra.
Set Implicit Arguments.
Unset Strict Implicit.
Unset Printing Implicit Defensive.
Import GRing.Theory.
Delimit Scope R_scope with coqR.
Local Open Scope ring_scope.

(** quadratic forms of permuted data *)
Lemma quad_perm T (K : T -> T -> R) n (x x' : nat -> T) t (r r' : nat -> R) (s : 'S_n) : psd K -> (forall a b, K a b = K b a) -> 0 <R t ->
  (forall i : 'I_n, x' i = x (s i)) -> (forall i : 'I_n, r' i = r (s i)) ->
  qf (invmx (gram K n x' t)) (colof n r') = qf (invmx (gram K n x t)) (colof n r).
Proof.
move=> KP KS H E F. have U := gram_unit KP n x H. have U' := gram_unit KP n x' H.
pose u := invmx (gram K n x t) *m colof n r. pose u' : 'cV[R]_n := \col_i u (s i) 0.
have Q : forall (A : 'M[R]_n) b, qf A b = dot b (A *m b) by move=> A b; rewrite /qf /dot mulmxA.
have E1 : gram K n x t *m u = colof n r by rewrite /u mulKVmx.
have E2 : invmx (gram K n x' t) *m colof n r' = u'.
  have -> : colof n r' = gram K n x' t *m u'; last by rewrite mulKmx.
  apply/matrixP=> i j. rewrite !mxE ord1 F. have := E1 => /matrixP /(_ (s i) 0). rewrite !mxE => <-.
  rewrite (reindex_inj (@perm_inj _ s)) /=. apply: eq_bigr => k _. rewrite !gramE !E [u' k 0]mxE. congr ((_ + _) * _).
  by rewrite (inj_eq (@perm_inj _ s)).
rewrite !Q E2 -/u !dotE. rewrite [RHS](reindex_inj (@perm_inj _ s)) /=. apply: eq_bigr => i _.
by rewrite [u' i 0]mxE !mxE F.
Qed.

Section Student.
Variables (name : string) (h : dict NumR) (d : nat) (ls : pyval NumR) (s nz : R) (K : elem -> elem -> R)
  (pm : prior NumR) (m : elem -> R) (inv : list (list R) -> res (list (list R))) (nu : R).
Hypotheses (RG : regression name h d ls s nz K pm m) (HI : inv_contract inv) (ND : dget h "dof" = Some (PFloat NumR nu)).
Notation predict := (@predict_with_hyps NumR exp inv).
Notation tpredict := (@tp_predict_with_hyps NumR exp inv).
Let KS := K_sym RG.
Let KP := K_psd RG.
Let T := shift_pos nz.

Definition tbeta (X : arr NumR) (Y : mat NumR) : R :=
  qf (invmx (gram K (alen X) (elem_nth X) (shift nz))) (colof (alen X) (resid m X Y)).
Lemma beta_tbeta X Y C B : fits name X d -> @get_kernel_inverse NumR exp inv X h name true false = Ok (C, B, None) -> beta_of m X Y B = tbeta X Y.
Proof.
move=> F E. have [C0 [B0 [EI [EC [SC [HB _]]]]]] := inverse_ok F (reg_hyps RG) (reg_cov RG) HI.
move: EI. rewrite E => [[? ?]]; subst C0 B0. rewrite /tbeta /qf -(inverse_mx F (reg_hyps RG) (reg_cov RG) EC HB) bil /beta_of Rsum_big.
apply: eq_bigr => i _. rewrite Rsum_big. apply: eq_bigr => j _. by rewrite !mxE.
Qed.

Lemma tp_ok X Xs Y : fits name X d -> fits name Xs d -> column (alen X) Y ->
  let f := t_factor nu (tbeta X Y) (alen X) in
  exists mu sd S sd' S', predict X Y Xs h name pm = Ok (mu, sd, S) /\
    tpredict X Y Xs h name pm = Ok ((nu + INR (alen X))%coqR, mu, sd', S') /\
    is_mx (alen Xs) 1 sd' /\ is_mx (alen Xs) (alen Xs) S' /\ (0 <= tbeta X Y)%coqR /\
    (forall j k, lt j (alen Xs) -> lt k (alen Xs) -> at_ S' j k = (f * at_ S j k)%coqR) /\
    (forall j, lt j (alen Xs) -> at_ sd' j 0 = sqrt (Rmax (at_ S' j j) 0)).
Proof.
move=> F Fs H f. have [mu [sd [S [B [C [sd' [S' [EI [E1 [E2 [A1 [A2 [B0 [V W]]]]]]]]]]]]]] := tp_predict_ok RG HI F Fs H ND.
rewrite (beta_tbeta Y F EI) in B0 V. by exists mu, sd, S, sd', S'.
Qed.

Lemma tp_perm X Xs Y p : fits name X d -> fits name Xs d -> column (alen X) Y -> Permutation p (List.seq 0 (alen X)) ->
  tpredict (take_rows X p) (take_out Y p) Xs h name pm = tpredict X Y Xs h name pm.
Proof.
move=> F Fs H P. have PP := predict_perm RG HI F Fs H P. have [L [I [sg Hs]]] := GPProofs3.perm_of P.
have F' := fits_take I F. have LA : alen (take_rows X p) = alen X by rewrite alen_take.
have H' : column (alen (take_rows X p)) (take_out Y p) by rewrite alen_take; exact: column_take H.
have [m1 [d1 [s1 [d1' [s1' [E1 [T1 [A1 [B1 [_ [V1 W1]]]]]]]]]]] := tp_ok F Fs H.
have [m2 [d2 [s2 [d2' [s2' [E2 [T2 [A2 [B2 [_ [V2 W2]]]]]]]]]]] := tp_ok F' Fs H'.
move: PP. rewrite E1 E2 => [[? ? ?]]; subst m2 d2 s2.
have EB : tbeta (take_rows X p) (take_out Y p) = tbeta X Y.
  have EX : forall i : 'I_(alen X), elem_nth (take_rows X p) i = elem_nth X (sg i).
    by move=> i; rewrite elem_take // ?Hs // L; exact/ltP.
  have ER : forall i : 'I_(alen X), resid m (take_rows X p) (take_out Y p) i = resid m X Y (sg i).
    move=> i. rewrite /resid EX out_take ?Hs // L. exact/ltP.
  rewrite /tbeta LA. exact: quad_perm EX ER.
rewrite EB LA in V2. rewrite T1 T2 LA.
have QS : s2' = s1' by apply: (is_mx_eq B2 B1) => i j Hi Hj; rewrite V1 // V2.
have QD : d2' = d1' by apply: (is_mx_eq A2 A1) => i j Hi Hj; have -> : j = 0%N by [lia]; rewrite W1 // W2 // QS.
by rewrite QS QD.
Qed.

Lemma tp_sub X Xs Y q r mu sd S : fits name X d -> fits name Xs d -> column (alen X) Y ->
  (forall k, List.In k q -> lt k (alen Xs)) -> tpredict X Y Xs h name pm = Ok (r, mu, sd, S) ->
  exists mu' sd' S', tpredict X Y (take_rows Xs q) h name pm = Ok (r, mu', sd', S') /\
    is_mx (List.length q) 1 mu' /\ is_mx (List.length q) 1 sd' /\ is_mx (List.length q) (List.length q) S' /\
    (forall j, lt j (List.length q) -> at_ mu' j 0 = at_ mu (List.nth j q 0%N) 0 /\ at_ sd' j 0 = at_ sd (List.nth j q 0%N) 0) /\
    (forall j k, lt j (List.length q) -> lt k (List.length q) -> j = k \/ List.nth j q 0%N <> List.nth k q 0%N ->
       at_ S' j k = at_ S (List.nth j q 0%N) (List.nth k q 0%N)).
Proof.
move=> F Fs H I E. have F' := fits_take I Fs.
have [m1 [d1 [s1 [d1' [s1' [E1 [T1 [A1 [B1 [_ [V1 W1]]]]]]]]]]] := tp_ok F Fs H.
have [m2 [d2 [s2 [d2' [s2' [E2 [T2 [A2 [B2 [_ [V2 W2]]]]]]]]]]] := tp_ok F F' H.
move: T1. rewrite E => [[? ? ? ?]]; subst r m1 d1' s1'.
have [m3 [d3 [s3 [E3 [A3 [_ [_ [M3 S3]]]]]]]] := predict_sub RG HI F Fs H I E1.
move: E3. rewrite E2 => [[? ? ?]]; subst m3 d3 s3. rewrite alen_take in A2 B2 V2 W2.
have B : forall j, lt j (List.length q) -> lt (List.nth j q 0%N) (alen Xs) by move=> j Hj; apply: I; apply: List.nth_In.
have SE : forall j k, lt j (List.length q) -> lt k (List.length q) -> j = k \/ List.nth j q 0%N <> List.nth k q 0%N ->
       at_ s2' j k = at_ S (List.nth j q 0%N) (List.nth k q 0%N).
  move=> j k Hj Hk JK. rewrite V1; try exact: B. rewrite V2 //. by rewrite S3.
exists m2, d2', s2'. do 4 (split=> //). split=> // j Hj. split; first by case: (M3 j Hj).
rewrite W2 // W1; last exact: B. by rewrite SE //; left.
Qed.

(** far from the data *)
Lemma tp_far X Y eps : fits name X d -> column (alen X) Y -> 0 <R eps ->
  exists D, forall Xs r mu sd S j, fits name Xs d -> lt j (alen Xs) -> tpredict X Y Xs h name pm = Ok (r, mu, sd, S) ->
    (forall i, lt i (alen X) -> far ls d D (elem_nth X i) (elem_nth Xs j)) ->
    (Rabs (at_ mu j 0 - m (elem_nth Xs j)) < eps /\
     Rabs (at_ S j j - t_factor nu (tbeta X Y) (alen X) * (K (elem_nth Xs j) (elem_nth Xs j) + jitter_cov)) < eps)%coqR.
Proof.
move=> F H He. set f := t_factor _ _ _. have P1 : (0 < Rabs f + 1)%coqR by have := Rabs_pos f; toRs; lra.
have He' : 0 <R (eps / (Rabs f + 1))%coqR by exact: Rdiv_lt_0_compat.
have [D HD] := far_prior RG HI F H He'. exists D => Xs r mu sd S j Fs Hj E HF.
have [m1 [d1 [s1 [d1' [s1' [E1 [T1 [A1 [B1 [_ [V1 W1]]]]]]]]]]] := tp_ok F Fs H.
move: T1. rewrite E => [[? ? ? ?]]; subst r m1 d1' s1'. have [Q1 Q2] := HD _ _ _ _ _ Fs Hj E1 HF.
have LE : (eps / (Rabs f + 1) <= eps)%coqR.
  apply: (Rmult_le_reg_r (Rabs f + 1)%coqR) => //. have -> : (eps / (Rabs f + 1) * (Rabs f + 1) = eps)%coqR by field; lra.
  have := Rabs_pos f. move: (Rabs f) => a Ha. toRs. nra.
split; first exact: (Rlt_le_trans _ _ _ Q1 LE). rewrite V1 // -/f.
move: Q2. set a := at_ s1 j j. set b := (K _ _ + jitter_cov)%coqR => Q2.
have -> : (f * a - f * b = f * (a - b))%coqR by ring. rewrite Rabs_mult.
apply: (Rle_lt_trans _ (Rabs f * (eps / (Rabs f + 1)))).
  by apply: Rmult_le_compat_l; [exact: Rabs_pos|left].
apply: (Rmult_lt_reg_r (Rabs f + 1)%coqR) => //.
have -> : (Rabs f * (eps / (Rabs f + 1)) * (Rabs f + 1) = Rabs f * eps)%coqR by field; lra.
have := Rabs_pos f. move: (Rabs f) => c Hc. toRs. nra.
Qed.

(** one more observation *)
Section Step.
Variables (X X' Xs : arr NumR) (Y Y' : mat NumR) (k : nat).
Hypotheses (F : fits name X d) (F' : fits name X' d) (Fs : fits name Xs d) (H : column (alen X) Y) (H' : column (alen X') Y') (Hk : lt k (alen Xs))
  (EX : elems X' = elems X ++ [:: elem_nth Xs k]) (EY : forall i, lt i (alen X) -> out Y' i = out Y i).
Lemma tbeta_step mu sd S : predict X Y Xs h name pm = Ok (mu, sd, S) ->
  let v := (at_ S k k + nz * nz)%coqR in let r := (out Y' (alen X) - at_ mu k 0)%coqR in
  tbeta X' Y' = (tbeta X Y + r * r / v)%coqR.
Proof.
move=> E v r. have [p [Ep [Hp Vp]]] := prior_ok X (reg_prior RG). have [p' [Ep' [Hp' Vp']]] := prior_ok X' (reg_prior RG).
have [C [B [EI [EC [_ [HB _]]]]]] := inverse_ok F (reg_hyps RG) (reg_cov RG) HI.
have [C' [B' [EI' [EC' [_ [HB' _]]]]]] := inverse_ok F' (reg_hyps RG) (reg_cov RG) HI.
have [_ V1] := residual_prior Y (reg_prior RG) Ep. have [_ V2] := residual_prior Y' (reg_prior RG) Ep'.
have [_ [_ Q]] := step_terms RG HI F F' Fs H Hk EX EY Ep Ep' EC HB EC' HB' E.
move: Q. by rewrite (quad_gram RG F' EC' HB' V2) (quad_gram RG F EC HB V1).
Qed.
Lemma tp_one_more r mu sd S r' mu' sd' S' : (2 < nu)%coqR ->
  tpredict X Y Xs h name pm = Ok (r, mu, sd, S) -> tpredict X' Y' Xs h name pm = Ok (r', mu', sd', S') ->
  let f := t_factor nu (tbeta X Y) (alen X) in
  let v := (at_ S k k + f * (nz * nz))%coqR in
  let c j := (at_ S j k - (if PeanoNat.Nat.eqb j k then f * jitter_cov else 0))%coqR in
  let e := (out Y' (alen X) - at_ mu k 0)%coqR in
  let g := ((r - 2 + e * e / v) / (r - 1))%coqR in
  (0 < f)%coqR /\ (0 < v)%coqR /\ (0 < g)%coqR /\ (r' = r + 1)%coqR /\
  (forall j, lt j (alen Xs) -> at_ mu' j 0 = (at_ mu j 0 + c j / v * e)%coqR) /\
  (forall j l, lt j (alen Xs) -> lt l (alen Xs) -> at_ S' j l = (g * (at_ S j l - c j * c l / v))%coqR).
Proof.
move=> N2 E E' f v c e g.
have [m1 [d1 [s1 [d1' [s1' [E1 [T1 [A1 [B1 [P1 [V1 W1]]]]]]]]]]] := tp_ok F Fs H.
have [m2 [d2 [s2 [d2' [s2' [E2 [T2 [A2 [B2 [P2 [V2 W2]]]]]]]]]]] := tp_ok F' Fs H'.
move: T1 T2. rewrite E E' => [[? ? ? ?] [? ? ? ?]]; subst m1 d1' s1' m2 d2' s2'.
have LX : alen X' = (alen X + 1)%N by exact: (step_len EX).
have [VP [M C]] := one_more RG HI F F' Fs H H' Hk EX EY E1 E2. have TB := tbeta_step E1.
set w := (at_ s1 k k + nz * nz)%coqR in VP M C TB. rewrite -/e in M TB.
set b := tbeta X Y in P1 V1 f v c g TB *. have N0 := pos_INR (alen X). set n := INR (alen X) in N0 *.
have EN : INR (alen X') = (n + 1)%coqR by rewrite LX plus_INR.
have FP : (0 < f)%coqR by rewrite /f /t_factor -/n; apply: Rdiv_lt_0_compat; toRs; lra.
have Ev : v = (f * w)%coqR by rewrite /v /w V1 // -/f; ring.
have Ec : forall j, lt j (alen Xs) -> c j = (f * (at_ s1 j k - (if PeanoNat.Nat.eqb j k then jitter_cov else 0)))%coqR.
  by move=> j Hj; rewrite /c V1 // -/f; case: (PeanoNat.Nat.eqb j k); ring.
have VV : (0 < v)%coqR by rewrite Ev; exact: Rmult_lt_0_compat.
have EE : (0 <= e * e)%coqR by exact: Rle_0_sqr.
have EV : (0 <= e * e / v)%coqR by apply: Rmult_le_pos => //; left; exact: Rinv_0_lt_compat.
have ER : r = (nu + n)%coqR by [].
have G : (0 < g)%coqR by rewrite /g ER; apply: Rdiv_lt_0_compat; toRs; lra.
have EF : (t_factor nu (tbeta X' Y') (alen X') = g * f)%coqR.
  rewrite TB /t_factor EN /g Ev ER /f /t_factor -/n.
  have Q : (0 < nu + b - 2)%coqR by toRs; lra.
  field. repeat split; toRs; lra.
do 3 (split=> //). split; first by match goal with H : r' = _ |- _ => rewrite H EN ER end; match goal with |- @eq _ ?x ?y => change (@eq R x y) end; ring.
split.
- move=> j Hj. rewrite (M j Hj) Ec // Ev. move: (if _ then _ else _) => q. rewrite -/e. field. split; toRs; lra.
- move=> j l Hj Hl. rewrite V2 // EF C // V1 // -/f !Ec // Ev. move: (if _ then _ else _) (if _ then _ else _) => q q'.
  field. split; toRs; lra.
Qed.
End Step.
End Student.

(** units of the coordinates *)
Section Units.
Variables (name : string) (h h' : dict NumR) (d : nat) (ls ls' : pyval NumR) (s nz : R) (K K' : elem -> elem -> R)
  (pm pm' : prior NumR) (m m' : elem -> R) (inv : list (list R) -> res (list (list R))) (nu : R).
Hypotheses (RG : regression name h d ls s nz K pm m) (RG' : regression name h' d ls' s nz K' pm' m') (HI : inv_contract inv).
Hypotheses (ND : dget h "dof" = Some (PFloat NumR nu)) (ND' : dget h' "dof" = Some (PFloat NumR nu)).
Variables (p : list nat) (sc tr : nat -> R).
Hypotheses (HP : Permutation p (List.seq 0 d)) (HS : forall i, lt i d -> sc i <> R0)
  (HL : recoord_ls d p sc ls ls') (HN : ls_nonzero ls d).
Notation re := (recoord_arr d p sc tr).
Notation tpredict := (@tp_predict_with_hyps NumR exp inv).
Lemma tp_recoord X Y Xs : fits name X d -> fits name Xs d -> column (alen X) Y ->
  (forall e, List.In e (elems X ++ elems Xs) -> m' (recoord_elem d p sc tr e) = m e) ->
  tpredict (re X) Y (re Xs) h' name pm' = tpredict X Y Xs h name pm.
Proof.
move=> F Fs H HM. have PP := predict_recoord RG RG' HI HP HS HL HN F Fs H HM.
have F' := recoord_fits p sc tr F. have Fs' := recoord_fits p sc tr Fs.
have H' : column (alen (re X)) Y by rewrite recoord_alen.
have [m1 [d1 [s1 [d1' [s1' [E1 [T1 [A1 [B1 [_ [V1 W1]]]]]]]]]]] := tp_ok RG HI ND F Fs H.
have [m2 [d2 [s2 [d2' [s2' [E2 [T2 [A2 [B2 [_ [V2 W2]]]]]]]]]]] := tp_ok RG' HI ND' F' Fs' H'.
move: PP. rewrite E1 E2 => [[? ? ?]]; subst m2 d2 s2.
have LX : alen (re X) = alen X by exact: recoord_alen.
have LS : alen (re Xs) = alen Xs by exact: recoord_alen.
have EB : tbeta nz K' m' (re X) Y = tbeta nz K m X Y.
  rewrite /tbeta LX. congr qf.
  - congr invmx. apply: gram_agree => i j.
    by apply: (@cov_recoord d p sc tr HP HS ls ls' HL HN name s K K' X X i j (reg_cov RG) (reg_cov RG')) => //; exact/ltP.
  - apply/matrixP=> i j. rewrite !mxE /resid recoord_elem_nth; last exact/ltP. rewrite HM //. apply: List.in_or_app; left. apply: List.nth_In.
    rewrite elems_len. exact/ltP.
rewrite EB LX in V2. rewrite LS in A2 B2 V2 W2. rewrite T1 T2 LX.
have QS : s2' = s1' by apply: (is_mx_eq B2 B1) => i j Hi Hj; rewrite V1 // V2.
have QD : d2' = d1' by apply: (is_mx_eq A2 A1) => i j Hi Hj; have -> : j = 0%N by [lia]; rewrite W1 // W2 // QS.
by rewrite QS QD.
Qed.
End Units.
