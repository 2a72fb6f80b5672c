From Verif Require Import Base Num NumLaws NumFin Monad UtilsModel SamplingFloat SamplingModel SamplingSpec.
From Coq Require Import List ZArith Bool Reals Lra Lia String.
From Flocq Require Import Core IEEE754.BinarySingleNaN.
Set Implicit Arguments. Unset Strict Implicit.

Lemma good_le (a b : f64) : is_finite a = true -> is_finite b = true -> (Bleb a b = true <-> (B2R a <= B2R b)%R).
Proof. intros A B. rewrite Bleb_correct by assumption. destruct (Rle_bool_spec (B2R a) (B2R b)); split; intros; try reflexivity; try discriminate; lra. Qed.

Lemma between_inside (lo hi x : f64) : is_finite lo = true -> is_finite hi = true -> inside64 lo hi x -> inside1 (lo, hi) x.
Proof. intros A B (C & D). split; apply good_le; try assumption; apply D. Qed.

Lemma unit_inside r u : good_range r -> is_unit u -> inside1 r (fadd (fmul u (fsub (snd r) (fst r))) (fst r)).
Proof.
  destruct r as [lo hi]. intros (A & B & C & D) (E & F). cbn [fst snd] in *. apply between_inside; try assumption.
  apply scaled_unit_inside; try assumption. now apply good_le.
Qed.

Lemma finite_nfinite (x : NumF) : is_finite (x : f64) = true -> nfinite NumF x = true.
Proof. destruct x as [s|s| |s m e b]; try discriminate; destruct s; reflexivity. Qed.

Lemma finite_notnan (x : f64) : is_finite x = true -> is_nan x = false.
Proof. destruct x; try reflexivity; discriminate. Qed.

Lemma fmul_not_nan (x y : f64) : is_finite x = true -> is_finite y = true -> is_nan (fmul x y) = false.
Proof.
  intros Hx Hy. assert (C := Bmult_correct prec64 emax64 prec64_gt_0 prec64_lt_emax mode_NE x y). unfold fmul.
  destruct (Rlt_bool _ _).
  - destruct C as (_ & F & _). rewrite Hx, Hy in F. apply finite_notnan, F.
  - destruct (Bmult mode_NE x y); try reflexivity. cbn in C. destruct (xorb _ _); discriminate C.
Qed.
Lemma fadd_not_nan (x y : f64) : is_nan x = false -> is_finite y = true -> is_nan (fadd x y) = false.
Proof.
  intros Hx Hy. destruct (is_finite x) eqn:Fx; [now apply Bplus_not_nan|].
  destruct x as [s|s| |s m e b]; try discriminate. destruct y as [s'|s'| |s' m' e' b']; try discriminate; reflexivity.
Qed.
Lemma fdiv_finite (x c : f64) : is_finite x = true -> (1 <= B2R c)%R -> is_finite (fdiv x c) = true.
Proof.
  intros Hx Hc. assert (C := Bdiv_correct prec64 emax64 prec64_gt_0 prec64_lt_emax mode_NE x c ltac:(lra)).
  rewrite Rlt_bool_true in C.
  - destruct C as (_ & F & _). unfold fdiv. now rewrite F.
  - eapply Rle_lt_trans; [|apply (abs_B2R_lt_emax _ _ x)].
    apply abs_round_le_generic; [apply (fexp_correct prec64 emax64 prec64_gt_0)|apply valid_rnd_N|apply generic_format_abs, generic_format_B2R|].
    unfold Rdiv. rewrite Rabs_mult. rewrite <- (Rmult_1_r (Rabs (B2R x))) at 2. apply Rmult_le_compat_l; [apply Rabs_pos|].
    rewrite Rabs_pos_eq. { rewrite <- Rinv_1. apply Rinv_le_contravar; lra. } left. apply Rinv_0_lt_compat. lra.
Qed.

Lemma fofZ4_R : B2R (fofZ 4 : f64) = 4%R.
Proof. vm_compute. lra. Qed.

Lemma Bleb_refl_fin (a : f64) : is_finite a = true -> Bleb a a = true.
Proof. intros H. apply good_le; auto. lra. Qed.
Lemma Bltb_ge (a b : f64) : is_finite b = true -> is_nan a = false -> Bltb a b = false -> Bleb b a = true.
Proof.
  intros Hb Ha H. destruct (is_finite a) eqn:Fa.
  - apply good_le; try assumption. rewrite Bltb_correct in H by assumption. destruct (Rlt_bool_spec (B2R a) (B2R b)); [discriminate|assumption].
  - destruct a as [s|s| |s m e p]; try discriminate. destruct b as [s'|s'| |s' m' e' p']; try discriminate; destruct s; try destruct s'; cbn in H; try discriminate; reflexivity.
Qed.

Lemma clip_inside (r : f64 * f64) x : good_range r -> is_nan x = false -> inside1 r (npclip NumF x (fst r) (snd r)).
Proof.
  destruct r as [lo hi]. intros (A & B & C & _) Hx. cbn [fst snd] in *. unfold npclip.
  set (y := npmax2 NumF x lo).
  assert (Y : is_nan (y : f64) = false /\ Bleb lo y = true).
  { unfold y, npmax2. cbn [nisnan nlt NumF]. rewrite Hx, (finite_notnan A).
    destruct (Bltb x lo) eqn:E; [split; [now apply finite_notnan|now apply Bleb_refl_fin]|].
    split; [exact Hx|now apply Bltb_ge]. }
  destruct Y as (Y1 & Y2). unfold npmin2. cbn [nisnan nlt NumF]. rewrite Y1, (finite_notnan B).
  destruct (Bltb hi y) eqn:E.
  - split; cbn [fst snd]; [exact C|now apply Bleb_refl_fin].
  - split; cbn [fst snd]; [exact Y2|]. clearbody y. destruct (is_finite (y : f64)) eqn:Fy.
    + apply good_le; try assumption. rewrite Bltb_correct in E by assumption. destruct (Rlt_bool_spec (B2R hi) (B2R (y : f64))); [discriminate|assumption].
    + destruct y as [s|s| |s m e p]; try discriminate. destruct s; [destruct lo as [s'|s'| |s' m' e' p']; try discriminate; destruct s'; discriminate|].
      destruct hi as [s'|s'| |s' m' e' p']; try discriminate; destruct s'; discriminate.
Qed.

Section Loops.
Context (G : Type) (one : NumF -> NumF -> G -> G * res NumF) (P : NumF * NumF -> Prop).
Hypothesis one_ok : forall r g, P r -> exists v, snd (one (fst r) (snd r) g) = Ok v /\ inside1 r v.

Lemma draw_row_cons (r : NumF * NumF) l g : draw_row NumF one (r :: l) g =
  match one (fst r) (snd r) g with
  | (g1, Ok v) => match draw_row NumF one l g1 with (g2, t2, Ok vs) => (g2, ([] ++ t2 ++ [])%list, Ok (v :: vs)) | (g2, t2, Raise e) => (g2, ([] ++ t2)%list, Raise e) end
  | (g1, Raise e) => (g1, [], Raise e)
  end.
Proof.
  unfold draw_row. cbn [mmapM]. unfold bind at 1, ext at 1. destruct (one (fst r) (snd r) g) as [g1 [v|e]]; [|reflexivity].
  unfold bind at 1. destruct (mmapM _ _ g1) as [[g2 t2] [vs|e]]; reflexivity.
Qed.

Lemma draw_row_ok range_X : Forall P range_X -> forall g, exists g' t row, draw_row NumF one range_X g = (g', t, Ok row) /\ in_box range_X row.
Proof.
  intros F. induction F as [|r l Hr F IH]; intros g.
  - exists g, [], []. split; [reflexivity|constructor].
  - rewrite draw_row_cons. destruct (one_ok g Hr) as (v & E & I).
    destruct (one (fst r) (snd r) g) as [g1 rv]. cbn [snd] in E. subst rv.
    destruct (IH g1) as (g2 & t2 & row & E2 & B). rewrite E2.
    eexists _, _, _. split; [reflexivity|]. constructor; assumption.
Qed.

Lemma draw_rows_ok range_X (l : list nat) : Forall P range_X ->
  forall g, exists g' t rows, mmapM (fun _ => draw_row NumF one range_X) l g = (g', t, Ok rows) /\ List.length rows = List.length l /\ Forall (in_box range_X) rows.
Proof.
  intros F. induction l as [|i l IH]; intros g.
  - exists g, [], []. repeat split. constructor.
  - cbn [mmapM]. unfold bind. destruct (draw_row_ok F g) as (g1 & t1 & row & E & B). rewrite E.
    destruct (IH g1) as (g2 & t2 & rows & E2 & L & B2). rewrite E2. unfold ret.
    eexists _, _, _. split; [reflexivity|]. cbn [List.length]. split; [now rewrite L|constructor; assumption].
Qed.

Context (W : Type) (mkstate : option Z -> W -> W * res G).
Lemma with_state_ok range_X num seed w w1 g : Forall P range_X -> mkstate seed w = (w1, Ok g) ->
  exists rows, with_state NumF mkstate one range_X num seed w = (w1, Ok rows) /\ List.length rows = Z.to_nat num /\ Forall (in_box range_X) rows.
Proof.
  intros F E. unfold with_state. rewrite E. unfold draw_rows.
  destruct (draw_rows_ok (seq 0 (Z.to_nat num)) F g) as (g' & t & rows & E2 & L & B). rewrite E2. cbn [snd].
  exists rows. rewrite L, seq_length. auto.
Qed.
Lemma with_state_raise range_X num seed w w1 e : mkstate seed w = (w1, Raise e) -> with_state NumF mkstate one range_X num seed w = (w1, Raise e).
Proof. intros E. unfold with_state. now rewrite E. Qed.
End Loops.

Lemma rs_uniform_ok G (unit_draw : G -> G * NumF) : unit_contract unit_draw ->
  forall (r : NumF * NumF) g, good_range r -> exists v, snd (rs_uniform NumF unit_draw (fst r) (snd r) g) = Ok v /\ inside1 r v.
Proof.
  intros U r g Hr. unfold rs_uniform. destruct Hr as (A & B & C & D). rewrite (finite_nfinite (x := nsub NumF (snd r) (fst r)) D).
  assert (Ug := U g). destruct (unit_draw g) as [g' u]. cbn [snd] in *. eexists. split; [reflexivity|].
  apply unit_inside; [|exact Ug]. repeat split; assumption.
Qed.
Lemma rs_gaussian_ok G (gauss_draw : G -> G * NumF) : gauss_contract gauss_draw ->
  forall (r : NumF * NumF) g, good_range r /\ sum_finite r -> exists v, snd (rs_gaussian NumF gauss_draw (fst r) (snd r) g) = Ok v /\ inside1 r v.
Proof.
  intros U r g (Hr & Hs). unfold rs_gaussian. assert (Ug := U g). destruct (gauss_draw g) as [g' z]. cbn [snd] in *.
  eexists. split; [reflexivity|]. apply clip_inside; [exact Hr|]. destruct Hr as (A & B & C & D).
  apply fadd_not_nan.
  - apply fmul_not_nan; [exact Ug|]. apply fdiv_finite; [exact D|]. change (1 <= B2R (fofZ 4))%R. rewrite fofZ4_R. lra.
  - apply fdiv_finite; [exact Hs|]. change (1 <= B2R (fofZ 2))%R. rewrite fofZ2_R. lra.
Qed.

Lemma scale_row_box range_X : Forall good_range range_X -> forall u, List.length u = List.length range_X -> Forall is_unit u -> in_box range_X (scale_row NumF range_X u).
Proof.
  intros F. induction F as [|r l Hr F IH]; intros [|x u] L U; try discriminate; [constructor|].
  inversion U; subst. destruct r as [lo hi]. constructor; [|apply IH; [now injection L|assumption]]. now apply (@unit_inside (lo, hi)).
Qed.

Section Top.
Context (W G : Type) (mkstate : option Z -> W -> W * res G) (unit_draw gauss_draw : G -> G * NumF)
  (qmc : qmc_kind -> nat -> option Z -> Z -> W -> W * res (list (list NumF))).
Notation samples := (get_samples NumF mkstate unit_draw gauss_draw qmc).

Lemma with_state_inv (P : NumF * NumF -> Prop) (one : NumF -> NumF -> G -> G * res NumF)
  (one_ok : forall r g, P r -> exists v, snd (one (fst r) (snd r) g) = Ok v /\ inside1 r v) range_X num seed w w' rows :
  Forall P range_X -> with_state NumF mkstate one range_X num seed w = (w', Ok rows) -> List.length rows = Z.to_nat num /\ Forall (in_box range_X) rows.
Proof.
  intros F H. destruct (mkstate seed w) as [w1 [g|e]] eqn:E.
  - destruct (with_state_ok one_ok num F E) as (rows' & E' & R). rewrite E' in H. injection H as <- <-. exact R.
  - rewrite (with_state_raise one range_X num E) in H. discriminate H.
Qed.

Lemma qmc_ok k (range_X : list (NumF * NumF)) num seed w w' rows : qmc_contract qmc -> Forall good_range range_X ->
  get_samples_qmc NumF qmc k range_X num seed w = (w', Ok rows) -> List.length rows = Z.to_nat num /\ Forall (in_box range_X) rows.
Proof.
  intros Q F. unfold get_samples_qmc. destruct (qmc k (List.length range_X) seed num w) as [w1 [s|e]] eqn:E; [|discriminate].
  intros H. apply pair_equal_spec in H. destruct H as (_ & H). apply (f_equal (fun r => match r with Ok a => a | Raise _ => [] end)) in H. cbv beta iota in H. subst rows. destruct (Q _ _ _ _ _ _ _ E) as (L & S). rewrite map_length. split; [exact L|].
  apply Forall_map. eapply Forall_impl; [|exact S]. intros u (A & B). now apply scale_row_box.
Qed.

Theorem samples_in_box (range_X : list (NumF * NumF)) m num seed w w' rows :
  unit_contract unit_draw -> gauss_contract gauss_draw -> qmc_contract qmc ->
  Forall good_range range_X -> (m = "gaussian"%string -> Forall sum_finite range_X) -> m <> "grid"%string ->
  samples range_X m num seed w = (w', Ok rows) -> List.length rows = Z.to_nat num /\ Forall (in_box range_X) rows.
Proof.
  intros U GC Q F S NG. unfold get_samples. destruct (str_in m ALLOWED_SAMPLING_METHOD); cbn [negb]; [|discriminate].
  destruct (String.eqb_spec m "grid"); [contradiction|].
  destruct (String.eqb_spec m "uniform"). { apply (with_state_inv (rs_uniform_ok U)). exact F. }
  destruct (String.eqb_spec m "gaussian").
  { apply (with_state_inv (rs_gaussian_ok GC)). apply Forall_forall. intros r I. split; [apply (proj1 (Forall_forall _ _) F r I)|apply (proj1 (Forall_forall _ _) (S e) r I)]. }
  destruct (String.eqb_spec m "sobol"). { now apply qmc_ok. }
  destruct (String.eqb_spec m "halton"). { now apply qmc_ok. }
  discriminate.
Qed.

(** and they do return *)
Theorem samples_return (range_X : list (NumF * NumF)) m num seed w w1 g :
  unit_contract unit_draw -> gauss_contract gauss_draw -> Forall good_range range_X ->
  m = "uniform"%string \/ m = "gaussian"%string /\ Forall sum_finite range_X -> mkstate seed w = (w1, Ok g) ->
  exists rows, samples range_X m num seed w = (w1, Ok rows).
Proof.
  intros U GC F M E. destruct M as [-> | (-> & S)].
  - destruct (with_state_ok (rs_uniform_ok U) num F E) as (rows & R & _). exists rows. exact R.
  - assert (FB : Forall (fun r => good_range r /\ sum_finite r) range_X).
    { apply Forall_forall. intros r I. split; [apply (proj1 (Forall_forall _ _) F r I)|apply (proj1 (Forall_forall _ _) S r I)]. }
    destruct (with_state_ok (rs_gaussian_ok GC) num FB E) as (rows & R & _). exists rows. exact R.
Qed.
Theorem samples_qmc_return (range_X : list (NumF * NumF)) m k num seed w w1 s :
  m = "sobol"%string /\ k = Sobol \/ m = "halton"%string /\ k = Halton ->
  qmc k (List.length range_X) seed num w = (w1, Ok s) -> exists rows, samples range_X m num seed w = (w1, Ok rows).
Proof. intros M E. destruct M as [(-> & ->) | (-> & ->)]; cbn; unfold get_samples_qmc; rewrite E; eexists; reflexivity. Qed.

Theorem initials_are_samples (range_X : list (NumF * NumF)) m num seed w :
  In m ["uniform"; "gaussian"; "sobol"; "halton"]%string ->
  get_initials NumF mkstate unit_draw gauss_draw qmc range_X m num seed w = samples range_X m num seed w.
Proof. intros H. unfold get_initials. cbn in H. intuition (subst; reflexivity). Qed.
Theorem initials_reject (range_X : list (NumF * NumF)) m num seed w :
  ~ In m ["uniform"; "gaussian"; "sobol"; "halton"]%string ->
  get_initials NumF mkstate unit_draw gauss_draw qmc range_X m num seed w = (w, Raise AssertionError).
Proof.
  intros H. unfold get_initials. replace (str_in m ALLOWED_INITIALIZING_METHOD_BO) with false; [reflexivity|].
  cbn. cbn in H. repeat match goal with |- context [String.eqb ?a ?b] => destruct (String.eqb_spec a b); [exfalso; apply H; subst; tauto|] end. reflexivity.
Qed.
End Top.
