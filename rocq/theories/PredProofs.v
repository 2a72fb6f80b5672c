(** Further properties of the predictions, in terms of the returned arrays: they are the best linear
    predictions, they can be updated one observation at a time, and they do not depend on the units
    of the coordinates. *)
From Verif Require Import Base Num UtilsSpec HypsModel CovModel KernelSpec CovSpec PSD CovProofs CovProofs2 RStruct MatLib GPModel GPSpec GPProofs GPMx GPProofs2 GPProofs3 PredSpec PredMx.
From Coq Require Import Reals Lra Lia Permutation.
From mathcomp Require Import all_ssreflect perm all_algebra.
Set Implicit Arguments.
Unset Strict Implicit.
Unset Printing Implicit Defensive.
Import GRing.Theory.
Delimit Scope R_scope with coqR.
Local Open Scope ring_scope.

Lemma elems_len X : List.length (elems X) = alen X.
Proof. by case: X => [x|l s d] /=; rewrite List.map_length. Qed.

(** entries of a column vector, and back *)
Definition ofcol n (w : 'cV[R]_n) (i : nat) : R := if insub i is Some k then w k 0 else 0.
Lemma colofK n (w : 'cV[R]_n) : colof n (ofcol w) = w.
Proof. by apply/matrixP=> i j; rewrite mxE /ofcol ord1 valK. Qed.

Lemma squared_error_mx K t n x w z : squared_error K t n x w z = K z z - dot (colof n w) (kvec K n x z) *+ 2 + qf (gram K n x t) (colof n w).
Proof.
rewrite /squared_error qfE dotE !Rsum_big.
have -> : \sum_(i < n) (w i * K (x i) z)%coqR = \sum_i colof n w i 0 * kvec K n x z i 0 by apply: eq_bigr => i _; rewrite !mxE.
have -> : \sum_(i < n) Rsum (List.map (fun j => (w i * w j * (K (x i) (x j) + (if PeanoNat.Nat.eqb i j then t else 0)))%coqR) (List.seq 0 n))
  = \sum_i \sum_j colof n w i 0 * colof n w j 0 * gram K n x t i j.
  apply: eq_bigr => i _. rewrite Rsum_big. apply: eq_bigr => j _. rewrite gramE ![colof _ _ _ _]mxE eqb_ord. by [].
move: (\sum_i _) (\sum_i _) (K z z) => p q k. rewrite mulr2n. toR. match goal with |- @eq _ ?x ?y => change (@eq R x y) end. ring.
Qed.

Section Props.
Variables (name : string) (h : dict NumR) (d : nat) (ls : pyval NumR) (s nz : R) (K : elem -> elem -> R)
  (pm : prior NumR) (m : elem -> R) (inv : list (list R) -> res (list (list R))).
Hypotheses (RG : regression name h d ls s nz K pm m) (HI : inv_contract inv).
Notation predict := (@predict_with_hyps NumR exp inv).
Let KS := K_sym RG.
Let KP := K_psd RG.
Let T := shift_pos nz.
Lemma shift_eq : shift nz = (nz * nz + jitter_cov)%coqR. Proof. by rewrite /shift /jitter_cov Rplus_comm. Qed.

(** ** best linear prediction *)
Lemma best_linear X Xs j : fits name X d -> fits name Xs d -> lt j (alen Xs) ->
  let z := elem_nth Xs j in let err := squared_error K (nz * nz + jitter_cov)%coqR (alen X) (elem_nth X) in
  exists w,
    (forall Y mu sd S, column (alen X) Y -> predict X Y Xs h name pm = Ok (mu, sd, S) ->
       at_ mu j 0 = linear_value m (alen X) (elem_nth X) (out Y) w z /\ at_ S j j = (err w z + jitter_cov)%coqR) /\
    (forall u, err w z <=R err u z) /\
    (forall u, err u z = err w z -> forall i, lt i (alen X) -> u i = w i).
Proof.
move=> F Fs Hj. rewrite -shift_eq. set n := alen X. set x := elem_nth X. move=> z err.
pose w := weights K n x (shift nz) z. exists (ofcol w).
have Ew : err (ofcol w) z = pcov K n x (shift nz) z z.
  rewrite /err squared_error_mx colofK. symmetry. exact: pcov_opt_eq.
split.
  move=> Y mu sd S HY E. have [m1 [d1 [s1 [E1 [A1 [B1 [C1 [M1 [D1 P1]]]]]]]]] := predict_ok RG HI F Fs HY.
  move: E1. rewrite E => [[? ? ?]]; subst m1 d1 s1. split.
  - rewrite M1 // /mean_at /linear_value -/z /pmean0 -/n -/x -/w Rplus_comm. congr (Rplus _ _).
    rewrite Rsum_big dotE. apply: eq_bigr => i _. by rewrite [X in _ * X]mxE /ofcol valK.
  - rewrite P1 // PeanoNat.Nat.eqb_refl Ew. by [].
split=> u.
- rewrite Ew /err squared_error_mx. exact: pcov_opt.
- move=> E i Hi. have Eu : colof n u = w.
    case: (boolP (colof n u == w)) => [/eqP ->//|/eqP NE]. have := pcov_opt_strict KS KP T NE. rewrite -Ew -E /err squared_error_mx.
    by move/Rlt_irrefl.
  have /matrixP/(_ (Ordinal (introT ltP Hi)) 0) := Eu. rewrite mxE /= => ->. by rewrite /ofcol insubT /=; [exact/ltP|move=> q; congr (w _ 0); exact: val_inj].
Qed.

(** ** one more observation *)
Lemma one_more X X' Xs Y Y' k mu sd S mu' sd' S' : fits name X d -> fits name X' d -> fits name Xs d ->
  column (alen X) Y -> column (alen X') Y' -> lt k (alen Xs) -> elems X' = elems X ++ [:: elem_nth Xs k] ->
  (forall i, lt i (alen X) -> out Y' i = out Y i) ->
  predict X Y Xs h name pm = Ok (mu, sd, S) -> predict X' Y' Xs h name pm = Ok (mu', sd', S') ->
  let v := (at_ S k k + nz * nz)%coqR in let c j := (at_ S j k - (if PeanoNat.Nat.eqb j k then jitter_cov else 0))%coqR in
  (0 <R v) /\ (forall j, lt j (alen Xs) -> at_ mu' j 0 = (at_ mu j 0 + c j / v * (out Y' (alen X) - at_ mu k 0))%coqR) /\
  (forall j l, lt j (alen Xs) -> lt l (alen Xs) -> at_ S' j l = (at_ S j l - c j * c l / v)%coqR).
Proof.
move=> F F' Fs H H' Hk EX EY E1 E2 v c.
have [m1 [d1 [s1 [E1' [A1 [B1 [C1 [M1 [D1 P1]]]]]]]]] := predict_ok RG HI F Fs H.
have [m2 [d2 [s2 [E2' [A2 [B2 [C2 [M2 [D2 P2]]]]]]]]] := predict_ok RG HI F' Fs H'.
move: E1' E2'. rewrite E1 E2 => [[? ? ?] [? ? ?]]; subst m1 d1 s1 m2 d2 s2.
have LX : alen X' = (alen X + 1)%N.
  rewrite -!elems_len EX. have := List.app_length (elems X) [:: elem_nth Xs k]. by [].
have XE : forall i : 'I_(alen X), elem_nth X' i = elem_nth X i.
  move=> i. rewrite /elem_nth EX. have := @List.app_nth1 _ (elems X) [:: elem_nth Xs k] (EPoint [::]) i. apply.
  rewrite elems_len. exact/ltP.
have XN : elem_nth X' (alen X) = elem_nth Xs k.
  rewrite {1}/elem_nth EX. have := @List.app_nth2 _ (elems X) [:: elem_nth Xs k] (EPoint [::]) (alen X).
  rewrite elems_len PeanoNat.Nat.sub_diag /=. by apply.
have Ev : v = pcov K (alen X) (elem_nth X') (shift nz) (elem_nth X' (alen X)) (elem_nth X' (alen X)) + shift nz.
  rewrite /v P1 // PeanoNat.Nat.eqb_refl /cov_at2 XN (pcov_ext K (shift nz) _ _ XE) shift_eq.
  move: (pcov _ _ _ _ _ _) => p. toR. match goal with |- @eq _ ?x ?y => change (@eq R x y) end. ring.
have Ec : forall j, lt j (alen Xs) -> c j = pcov K (alen X) (elem_nth X') (shift nz) (elem_nth Xs j) (elem_nth X' (alen X)).
  move=> j Hj. rewrite /c P1 // /cov_at2 XN (pcov_ext K (shift nz) _ _ XE).
  move: (pcov _ _ _ _ _ _) (if _ then _ else _) => p q. toR. match goal with |- @eq _ ?x ?y => change (@eq R x y) end. ring.
have V := v_pos KS KP (alen X) (elem_nth X') T. rewrite -Ev in V.
have G : forall j, lt j (alen Xs) -> gain K (alen X) (elem_nth X') (shift nz) (elem_nth Xs j) = (c j / v)%coqR.
  move=> j Hj. rewrite /gain -Ec // -Ev RinvE //. by move=> Z; rewrite Z in V; exact: (Rlt_irrefl _ V).
have R' : forall i : 'I_(alen X), resid m X' Y' i = resid m X Y i.
  move=> i. rewrite /resid XE EY //. exact/ltP.
have PM : forall z, pmean0 K (alen X) (elem_nth X') (shift nz) (resid m X' Y') z = pmean0 K (alen X) (elem_nth X) (shift nz) (resid m X Y) z.
  move=> z. exact: pmean_ext.
split=> //. split.
- move=> j Hj. rewrite M2 // M1 // (M1 k Hk) /mean_at LX (@pmean_border _ _ KS KP _ _ _ T) (G j Hj) !PM XN. rewrite [resid m X' Y' _]/resid XN.
  move: (pmean0 _ _ _ _ _ _) (pmean0 _ _ _ _ _ _) (c j / v)%coqR (m _) (m _) (out _ _) => p q g a b y.
  toR. match goal with |- @eq _ ?x ?y => change (@eq R x y) end. ring.
- move=> j l Hj Hl. rewrite P2 // P1 // /cov_at2 LX (@pcov_border _ _ KS KP _ _ _ T) (G j Hj) (pcov_sym KS _ _ _ (elem_nth X' (alen X)) (elem_nth Xs l)) -Ec //.
  rewrite (pcov_ext K (shift nz) _ _ XE).
  move: (pcov _ _ _ _ _ _) (c j) (c l) (if _ then _ else _) => p q g y. rewrite /Rdiv.
  toR. match goal with |- @eq _ ?x ?y => change (@eq R x y) end. ring.
Qed.
End Props.
