(** Cholesky factors of three observations: algebra. *)
From Coq Require Import Reals Lra.
Open Scope R_scope.
Set Implicit Arguments.
Unset Strict Implicit.

Lemma chol3_alg (c a b e x00 x10 x11 x20 x21 x22 : R) : (c = x00 * x00 -> a = x10 * x00 -> c = x10 * x10 + x11 * x11 -> b = x20 * x00 ->
  e = x20 * x10 + x21 * x11 -> c = x20 * x20 + (x21 * x21 + x22 * x22) ->
  c = x00 * x00 /\ c * (x11 * x11) = c * c - a * a /\
  c * c * ((x11 * x11) * (x22 * x22)) = (c * c - a * a) * (c * c - b * b) - (c * e - b * a) * (c * e - b * a)).
Proof.
intros Q00 Q10 Q11 Q20 Q21 Q22.
assert (X11 : (x11 * x11 = c - x10 * x10)) by lra.
assert (X22 : (x22 * x22 = c - x20 * x20 - x21 * x21)) by lra.
assert (Y2 : (c * (x11 * x11) = c * c - a * a)) by (rewrite X11, Q10; replace (x10 * x00 * (x10 * x00)) with (x10 * x10 * (x00 * x00)) by ring; rewrite <- Q00; ring).
assert (Y3 : (c * (x20 * x20) = b * b)) by (rewrite Q20, Q00; ring).
assert (Y1 : (c * (x21 * x11) = c * e - b * a)).
{ rewrite Q21, Q20, Q10. replace (x20 * x00 * (x10 * x00)) with (x20 * x10 * (x00 * x00)) by ring. rewrite <- Q00. ring. }
split; [exact Q00|]. split; [exact Y2|]. rewrite <- Y1, <- Y2, <- Y3, X22. ring.
Qed.
Lemma two_roots (e u w u' w' : R) : (0 < e -> 0 < u -> 0 < w -> 0 < u' -> 0 < w' -> u * w = u' * w' -> (u + e) * (w + e) = (u' + e) * (w' + e) ->
  u = u' \/ (u = w' /\ w = u')).
Proof.
intros E A B C D P Q. assert (S : (u + w = u' + w')) by (apply (Rmult_eq_reg_l e); nra).
assert (Z : ((u - u') * (u - w') = 0)) by nra.
destruct (Rmult_integral _ _ Z) as [G|G]; [left; lra|right; split; lra].
Qed.
Lemma diag_differ (e c a b x00 u w y00 u' w' : R) : (0 < e -> 0 < b -> b < a -> a < c ->
  0 < x00 -> 0 < u -> 0 < w -> 0 < y00 -> 0 < u' -> 0 < w' -> c = x00 * x00 -> c = y00 * y00 ->
  c * (u * u) = c * c - a * a -> c * (u' * u') = c * c - b * b ->
  c * c * ((u * u) * (w * w)) = (c * c - a * a) * (c * c - b * b) - (c * b - b * a) * (c * b - b * a) ->
  c * c * ((u' * u') * (w' * w')) = (c * c - b * b) * (c * c - a * a) - (c * b - a * b) * (c * b - a * b) ->
  ln (x00 + e) - ln x00 + (ln (u + e) - ln u + (ln (w + e) - ln w)) <> ln (y00 + e) - ln y00 + (ln (u' + e) - ln u' + (ln (w' + e) - ln w'))).
Proof.
intros E B BA AC X0 U W Y0 U' W' Cx Cy Hu Hu' HP HP' EQ.
assert (x00 = y00) by (apply Rsqr_inj; unfold Rsqr; lra). subst y00.
assert (CP : (0 < c)) by lra.
assert (PW : (u * w = u' * w')).
{ apply Rsqr_inj; [apply Rlt_le, Rmult_lt_0_compat; lra|apply Rlt_le, Rmult_lt_0_compat; lra|]. unfold Rsqr.
  apply (Rmult_eq_reg_l (c * c)); [|apply Rgt_not_eq, Rmult_lt_0_compat; lra].
  replace (c * c * (u * w * (u * w))) with (c * c * (u * u * (w * w))) by ring.
  replace (c * c * (u' * w' * (u' * w'))) with (c * c * (u' * u' * (w' * w'))) by ring. rewrite HP, HP'. ring. }
assert (LP : (ln u + ln w = ln u' + ln w')) by (rewrite <- !ln_mult by lra; now rewrite PW).
assert (LQ : ((u + e) * (w + e) = (u' + e) * (w' + e))).
{ apply ln_inv; [apply Rmult_lt_0_compat; lra|apply Rmult_lt_0_compat; lra|]. rewrite !ln_mult by lra. lra. }
destruct (two_roots E U W U' W' PW LQ) as [G|[G1 G2]].
- subst u'. nra.
- subst w' w. assert (Z : (c * c * (u * u * (u' * u')) = (c * c - a * a) * (c * c - b * b))) by (rewrite <- Hu, <- Hu'; ring).
  rewrite Z in HP. assert (D : (0 < b * (c - a))) by (apply Rmult_lt_0_compat; lra). nra.
Qed.
