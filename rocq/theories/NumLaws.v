(** Order laws shared by both number instances: off NaN, comparisons are those of a
    real-valued key; NaN compares false with everything. *)
From Coq Require Import Reals ZArith Bool List Lra Floats.SpecFloat.
From Flocq Require Import Core.Core IEEE754.BinarySingleNaN.
From Verif Require Import Base Num.
Set Implicit Arguments.
Local Open Scope R_scope.

Record NumOrd (N : Num) : Type := {
  key : N -> R;
  ord_lt : forall x y, nlt N x y = negb (nisnan N x) && negb (nisnan N y) && Rlt_bool (key x) (key y);
  ord_le : forall x y, nle N x y = negb (nisnan N x) && negb (nisnan N y) && Rle_bool (key x) (key y);
  ord_eq : forall x y, neqb N x y = negb (nisnan N x) && negb (nisnan N y) && Req_bool (key x) (key y);
  ord_ltinf_nan : forall x, nltinf N x = true -> nisnan N x = false;
  ord_ltinf_top : forall x y, nisnan N x = false -> nltinf N x = false ->
                              nisnan N y = false -> key y <= key x;
  ord_ltinf_lt : forall x y, nisnan N x = false -> nltinf N x = false ->
                             nltinf N y = true -> key y < key x;
  ord_inf : forall i, ninf N = Some i -> nisnan N i = false /\ nltinf N i = false
}.

Definition NumR_ord : NumOrd NumR.
Proof.
  refine {| key := fun x : NumR => x |}; simpl; intros; try reflexivity; try discriminate.
Defined.

(** real-valued key of a float: infinities at +-2^1024 *)
Definition fkey (x : f64) : R :=
  match x with
  | B754_infinity s => if s then - bpow radix2 emax64 else bpow radix2 emax64
  | _ => B2R x
  end.

Lemma fkey_finite x : is_finite x = true -> fkey x = B2R x.
Proof. destruct x; simpl; intros; try reflexivity; discriminate. Qed.

Lemma fkey_bound x : is_finite x = true -> - bpow radix2 emax64 < fkey x < bpow radix2 emax64.
Proof.
  intros H. rewrite (fkey_finite x H).
  pose proof (abs_B2R_lt_emax _ _ x) as B.
  apply Rabs_lt_inv in B. exact B.
Qed.

Lemma bpow1024_pos : 0 < bpow radix2 emax64.
Proof. apply bpow_gt_0. Qed.

Lemma Bltb_key (x y : f64) :
  Bltb x y = negb (is_nan x) && negb (is_nan y) && Rlt_bool (fkey x) (fkey y).
Proof.
  destruct (is_finite x) eqn:Fx, (is_finite y) eqn:Fy.
  - rewrite Bltb_correct by assumption. rewrite !fkey_finite by assumption.
    destruct x, y; try discriminate; reflexivity.
  - pose proof (fkey_bound x Fx) as Bx. destruct y as [s|s| |s m e H]; try discriminate.
    + assert (E : Bltb x (B754_infinity s) = negb s) by (destruct x as [|[]| |[]], s; try discriminate; reflexivity).
      rewrite E. destruct s; simpl in *; [rewrite Rlt_bool_false by lra|rewrite Rlt_bool_true by lra];
        destruct x; try discriminate; reflexivity.
    + destruct x as [|[]| |[]]; try discriminate; reflexivity.
  - pose proof (fkey_bound y Fy) as By. destruct x as [s|s| |s m e H]; try discriminate.
    + assert (E : Bltb (B754_infinity s) y = s) by (destruct y as [|[]| |[]], s; try discriminate; reflexivity).
      rewrite E. destruct s; simpl in *; [rewrite Rlt_bool_true by lra|rewrite Rlt_bool_false by lra];
        destruct y; try discriminate; reflexivity.
    + destruct y as [|[]| |[]]; try discriminate; reflexivity.
  - pose proof bpow1024_pos as P.
    destruct x as [s|s| |s m e H], y as [s'|s'| |s' m' e' H']; try discriminate; simpl; try reflexivity;
      try (destruct s; reflexivity); try (destruct s'; reflexivity).
    destruct s, s'; simpl; symmetry; first [apply Rlt_bool_true; lra | apply Rlt_bool_false; lra].
Qed.

Lemma Bleb_key (x y : f64) :
  Bleb x y = negb (is_nan x) && negb (is_nan y) && Rle_bool (fkey x) (fkey y).
Proof.
  destruct (is_finite x) eqn:Fx, (is_finite y) eqn:Fy.
  - rewrite Bleb_correct by assumption. rewrite !fkey_finite by assumption.
    destruct x, y; try discriminate; reflexivity.
  - pose proof (fkey_bound x Fx) as Bx. destruct y as [s|s| |s m e H]; try discriminate.
    + assert (E : Bleb x (B754_infinity s) = negb s) by (destruct x as [|[]| |[]], s; try discriminate; reflexivity).
      rewrite E. destruct s; simpl in *; [rewrite Rle_bool_false by lra|rewrite Rle_bool_true by lra];
        destruct x; try discriminate; reflexivity.
    + destruct x as [|[]| |[]]; try discriminate; reflexivity.
  - pose proof (fkey_bound y Fy) as By. destruct x as [s|s| |s m e H]; try discriminate.
    + assert (E : Bleb (B754_infinity s) y = s) by (destruct y as [|[]| |[]], s; try discriminate; reflexivity).
      rewrite E. destruct s; simpl in *; [rewrite Rle_bool_true by lra|rewrite Rle_bool_false by lra];
        destruct y; try discriminate; reflexivity.
    + destruct y as [|[]| |[]]; try discriminate; reflexivity.
  - pose proof bpow1024_pos as P.
    destruct x as [s|s| |s m e H], y as [s'|s'| |s' m' e' H']; try discriminate; simpl; try reflexivity;
      try (destruct s; reflexivity); try (destruct s'; reflexivity).
    destruct s, s'; simpl; symmetry; first [apply Rle_bool_true; lra | apply Rle_bool_false; lra].
Qed.

Lemma Beqb_key (x y : f64) :
  Beqb x y = negb (is_nan x) && negb (is_nan y) && Req_bool (fkey x) (fkey y).
Proof.
  assert (E : Beqb x y = Bleb x y && Bleb y x).
  { pose proof (Bcompare_swap _ _ x y) as S. unfold Beqb, Bleb, SFeqb, SFleb, Bcompare in *.
    rewrite S. destruct (SFcompare (B2SF x) (B2SF y)) as [[]|]; reflexivity. }
  rewrite E, !Bleb_key. destruct (is_nan x), (is_nan y); simpl; try reflexivity.
  case Req_bool_spec; intro H; case Rle_bool_spec; intro H1; case Rle_bool_spec; intro H2; simpl; try reflexivity; lra.
Qed.

Definition NumF_ord : NumOrd NumF.
Proof.
  refine {| key := fkey : NumF -> R |}; cbn [nlt nle neqb nisnan nltinf NumF car].
  - apply Bltb_key.
  - apply Bleb_key.
  - apply Beqb_key.
  - intros x H. rewrite Bltb_key in H. destruct (is_nan x); [discriminate|reflexivity].
  - intros x y Nx H Ny. rewrite Bltb_key, Nx in H. cbn [negb andb is_nan finf] in H.
    change (fkey finf) with (bpow radix2 emax64) in H.
    assert (L : bpow radix2 emax64 <= fkey x).
    { destruct (Rle_or_lt (bpow radix2 emax64) (fkey x)) as [L|L]; [exact L|].
      rewrite (Rlt_bool_true _ _ L) in H. discriminate H. }
    pose proof bpow1024_pos.
    destruct (is_finite y) eqn:Fy; [pose proof (fkey_bound y Fy); lra|].
    destruct y as [|[]| |]; try discriminate; cbn [fkey]; lra.
  - intros x y Nx H Hy. rewrite Bltb_key in H, Hy. rewrite Nx in H. cbn [negb andb is_nan finf] in H.
    change (fkey finf) with (bpow radix2 emax64) in H, Hy.
    apply andb_prop in Hy as [_ Hy].
    destruct (Rle_or_lt (bpow radix2 emax64) (fkey x)) as [L|L].
    + destruct (Rle_or_lt (bpow radix2 emax64) (fkey y)) as [L'|L'].
      * rewrite (Rlt_bool_false _ _ L') in Hy. discriminate Hy.
      * lra.
    + rewrite (Rlt_bool_true _ _ L) in H. discriminate H.
  - intros i H. injection H as <-. split; reflexivity.
Defined.

(** Derived facts. *)
Section Facts.
Context (N : Num) (O : NumOrd N).

Lemma nlt_true x y : nlt N x y = true -> nisnan N x = false /\ nisnan N y = false /\ key O x < key O y.
Proof.
  rewrite (ord_lt O). destruct (nisnan N x), (nisnan N y); simpl; try discriminate.
  case Rlt_bool_spec; intros; [auto|discriminate].
Qed.

Lemma nlt_false x y : nisnan N x = false -> nisnan N y = false -> nlt N x y = false -> key O y <= key O x.
Proof.
  intros Hx Hy. rewrite (ord_lt O), Hx, Hy; simpl. case Rlt_bool_spec; intros; [discriminate|assumption].
Qed.

Lemma nlt_intro x y : nisnan N x = false -> nisnan N y = false -> key O x < key O y -> nlt N x y = true.
Proof. intros Hx Hy H. rewrite (ord_lt O), Hx, Hy; simpl. now apply Rlt_bool_true. Qed.

Lemma nle_true x y : nle N x y = true <-> nisnan N x = false /\ nisnan N y = false /\ key O x <= key O y.
Proof.
  rewrite (ord_le O). destruct (nisnan N x), (nisnan N y); simpl; split; try discriminate;
    try (intros [A [B C]]; discriminate).
  - case Rle_bool_spec; intros; [auto|discriminate].
  - intros [_ [_ H]]. now apply Rle_bool_true.
Qed.

Lemma nle_of_nlt_false x y : nisnan N x = false -> nisnan N y = false -> nlt N x y = false -> nle N y x = true.
Proof. intros Hx Hy H. apply nle_true. repeat split; try assumption. now apply nlt_false. Qed.

Lemma nlt_nle x y : nlt N x y = true -> nle N x y = true.
Proof. intros H. apply nlt_true in H as (A & B & C). apply nle_true. repeat split; auto. lra. Qed.

Lemma nle_refl x : nisnan N x = false -> nle N x x = true.
Proof. intros H. apply nle_true. repeat split; auto. lra. Qed.

Lemma nle_trans x y z : nle N x y = true -> nle N y z = true -> nle N x z = true.
Proof. rewrite !nle_true. intros (A & B & C) (D & E & F). repeat split; auto. lra. Qed.

Lemma nlt_nle_trans x y z : nlt N x y = true -> nle N y z = true -> nlt N x z = true.
Proof. intros H. apply nlt_true in H as (A & B & C). rewrite nle_true. intros (D & E & F).
  apply nlt_intro; auto. lra. Qed.

Lemma nle_nlt_trans x y z : nle N x y = true -> nlt N y z = true -> nlt N x z = true.
Proof. rewrite nle_true. intros (A & B & C) H. apply nlt_true in H as (D & E & F).
  apply nlt_intro; auto. lra. Qed.

Lemma nlt_not_nle x y : nlt N x y = true -> nle N y x = false.
Proof. intros H. apply nlt_true in H as (A & B & C). rewrite (ord_le O), A, B; simpl.
  now apply Rle_bool_false. Qed.

Lemma nle_not_nlt x y : nle N x y = true -> nlt N y x = false.
Proof. rewrite nle_true. intros (A & B & C). rewrite (ord_lt O), A, B; simpl. now apply Rlt_bool_false. Qed.

Lemma nlt_irrefl x : nlt N x x = false.
Proof. rewrite (ord_lt O). rewrite Rlt_bool_false by lra. apply andb_false_r. Qed.

Lemma nlt_ltinf x y : nlt N x y = true -> nltinf N y = true -> nltinf N x = true.
Proof.
  intros H Hy. apply nlt_true in H as (A & B & C).
  destruct (nltinf N x) eqn:E; [reflexivity|].
  pose proof (ord_ltinf_lt O _ _ A E Hy). lra.
Qed.

Lemma nlt_ltinf_l x y : nlt N x y = true -> nltinf N x = true.
Proof.
  intros H. apply nlt_true in H as (A & B & C).
  destruct (nltinf N x) eqn:E; [reflexivity|].
  pose proof (ord_ltinf_top O _ _ A E B). lra.
Qed.

Lemma nle_ltinf x y : nle N x y = true -> nltinf N y = true -> nltinf N x = true.
Proof.
  intros H Hy. apply nle_true in H as (A & B & C).
  destruct (nltinf N x) eqn:E; [reflexivity|].
  pose proof (ord_ltinf_lt O _ _ A E Hy). lra.
Qed.

Lemma nle_top x y : nisnan N x = false -> nltinf N x = false -> nisnan N y = false -> nle N y x = true.
Proof. intros A B C. apply nle_true. repeat split; auto. now apply (ord_ltinf_top O). Qed.
End Facts.
