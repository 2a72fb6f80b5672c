From Verif Require Import Base Lists Num NumLaws UtilsModel HypsModel HypsSpec UtilsSpec UtilsRProofs.
From Coq Require Import List ZArith Bool String Lia Reals Lra.
From Flocq Require Import Core.Raux.
Local Open Scope string_scope.

Lemma str_in_In s l : str_in s l = true <-> In s l.
Proof.
  unfold str_in. rewrite existsb_exists. split.
  - intros (x & Hx & E). apply String.eqb_eq in E. now subst.
  - intros H. exists s. split; [exact H|apply String.eqb_refl].
Qed.

Lemma allowed_cov_names : ALLOWED_COV = cov_names. Proof. reflexivity. Qed.
Lemma list_first_names : list_first = cov_names. Proof. reflexivity. Qed.

Section Proofs.
Context (N : Num).

Lemma dget_dset_same (d : dict N) k v : dget (dset d k v) k = Some v.
Proof.
  induction d as [|[k' v'] d IH]; cbn; [now rewrite String.eqb_refl|].
  destruct (String.eqb_spec k k') as [->|Ne]; cbn; [now rewrite String.eqb_refl|].
  destruct (String.eqb_spec k k'); [contradiction|exact IH].
Qed.

Lemma dget_dset_other (d : dict N) k k' v : k <> k' -> dget (dset d k v) k' = dget d k'.
Proof.
  intros Ne. induction d as [|[a v'] d IH]; cbn.
  - destruct (String.eqb_spec k' k); [congruence|reflexivity].
  - destruct (String.eqb_spec k a) as [->|Na]; cbn; [|now rewrite IH].
    destruct (String.eqb_spec k' a); [congruence|reflexivity].
Qed.

Theorem convert_layout cov (d : dict N) h fix_noise :
  In cov cov_names -> binds d h ->
  convert_hyps cov d (match h_dof h with None => true | Some _ => false end) fix_noise = Ok (layout fix_noise h).
Proof.
  intros Hc (Hn & Hd & Hs & Hl). unfold convert_hyps, dfloat.
  rewrite allowed_cov_names, list_first_names, (proj2 (str_in_In _ _) Hc). cbn [assert_ rbind].
  rewrite Hn, Hs, Hl, Hd. unfold layout. destruct fix_noise, (h_dof h), (h_ls h); reflexivity.
Qed.

(** decoding a vector *)
Definition decode (use_gp use_ard fix_noise : bool) (noise : N) (v : list N) (h : hypset N) : Prop :=
  layout fix_noise h = v /\ (fix_noise = true -> h_noise h = noise) /\
  (h_dof h = None <-> use_gp = true) /\
  (use_ard = true -> exists l, h_ls h = inl l) /\ (use_ard = false -> exists x, h_ls h = inr x).

Theorem restore_decodes cov v use_gp use_ard fix_noise noise (h : hypset N) :
  In cov cov_names -> decode use_gp use_ard fix_noise noise v h ->
  exists d, restore_hyps N cov v use_gp use_ard fix_noise noise = Ok d /\ binds d h.
Proof.
  intros Hc (L & Hn & Hg & Ha1 & Ha2). unfold restore_hyps.
  rewrite allowed_cov_names, list_first_names, (proj2 (str_in_In _ _) Hc). cbn [assert_ rbind].
  destruct h as [nz dof sg ls]. unfold layout in L. cbn [h_noise h_dof h_signal h_ls] in *.
  assert (Dof : (use_gp = true /\ dof = None) \/ (use_gp = false /\ exists nu, dof = Some nu)).
  { destruct dof as [nu|]; [right|left]; destruct use_gp; try (split; eauto; fail).
    - exfalso. assert (Some nu = None) by now apply Hg. discriminate.
    - exfalso. assert (false = true) by now apply Hg. discriminate. }
  assert (Ard : (use_ard = true /\ exists l, ls = inl l) \/ (use_ard = false /\ exists x, ls = inr x)).
  { destruct use_ard; [left|right]; auto. }
  destruct fix_noise.
  - rewrite (Hn eq_refl) in *.
    destruct Dof as [[-> ->]|[-> (nu & ->)]], Ard as [[-> (l & ->)]|[-> (x & ->)]]; cbn [app] in L; subst v;
      cbn -[dset]; eexists; (split; [reflexivity|]); repeat split.
  - destruct Dof as [[-> ->]|[-> (nu & ->)]], Ard as [[-> (l & ->)]|[-> (x & ->)]]; cbn [app] in L; subst v;
      cbn -[dset]; eexists; (split; [reflexivity|]); repeat split.
Qed.

Lemma decode_exists use_gp use_ard fix_noise noise (v : list N) :
  admissible use_gp use_ard fix_noise (List.length v) -> exists h, decode use_gp use_ard fix_noise noise v h.
Proof.
  unfold admissible, decode, layout.
  destruct use_gp, use_ard, fix_noise; cbn [Nat.add]; intros A;
  repeat match goal with
  | H : (S _ <= List.length ?v)%nat |- _ => destruct v as [|? ?v]; cbn [List.length] in H; [lia|apply le_S_n in H]
  | H : List.length ?v = S _ |- _ => destruct v as [|? ?v]; cbn [List.length] in H; [lia|apply eq_add_S in H]
  | H : List.length ?v = 0%nat |- _ => destruct v; [clear H|discriminate]
  end.
  - exists (mkhyps noise None c (inl v)). cbn. repeat split; eauto; discriminate.
  - exists (mkhyps c None c0 (inl v)). cbn. repeat split; eauto; discriminate.
  - exists (mkhyps noise None c (inr c0)). cbn. repeat split; eauto; discriminate.
  - exists (mkhyps c None c0 (inr c1)). cbn. repeat split; eauto; discriminate.
  - exists (mkhyps noise (Some c) c0 (inl v)). cbn. repeat split; eauto; discriminate.
  - exists (mkhyps c (Some c0) c1 (inl v)). cbn. repeat split; eauto; discriminate.
  - exists (mkhyps noise (Some c) c0 (inr c1)). cbn. repeat split; eauto; discriminate.
  - exists (mkhyps c (Some c0) c1 (inr c2)). cbn. repeat split; eauto; discriminate.
Qed.

Theorem convert_restore cov v use_gp use_ard fix_noise noise :
  In cov cov_names -> admissible use_gp use_ard fix_noise (List.length v) ->
  exists d, restore_hyps N cov v use_gp use_ard fix_noise noise = Ok d /\
            convert_hyps cov d use_gp fix_noise = Ok v /\
            (fix_noise = true -> dget d "noise" = Some (PFloat N noise)).
Proof.
  intros Hc A. destruct (decode_exists use_gp use_ard fix_noise noise v A) as (h & D).
  destruct (restore_decodes cov v use_gp use_ard fix_noise noise h Hc D) as (d & E & B).
  exists d. split; [exact E|]. destruct D as (L & Hn & Hg & _).
  pose proof (convert_layout cov d h fix_noise Hc B) as C. rewrite L in C.
  split.
  - rewrite <- C. f_equal. destruct (h_dof h), use_gp; try reflexivity.
    + exfalso. assert (Some c = None) by now apply Hg. discriminate.
    + exfalso. assert (false = true) by now apply Hg. discriminate.
  - intros F. destruct B as (B & _). rewrite B, (Hn F). reflexivity.
Qed.

Theorem restore_convert cov (d : dict N) h use_ard fix_noise noise :
  In cov cov_names -> binds d h ->
  (match h_ls h with inl _ => use_ard = true | inr _ => use_ard = false end) ->
  exists v d', convert_hyps cov d (match h_dof h with None => true | Some _ => false end) fix_noise = Ok v /\
    restore_hyps N cov v (match h_dof h with None => true | Some _ => false end) use_ard fix_noise noise = Ok d' /\
    binds d' (mkhyps (if fix_noise then noise else h_noise h) (h_dof h) (h_signal h) (h_ls h)).
Proof.
  intros Hc B Ha. exists (layout fix_noise h).
  set (h' := mkhyps (if fix_noise then noise else h_noise h) (h_dof h) (h_signal h) (h_ls h)).
  destruct (restore_decodes cov (layout fix_noise h) (match h_dof h with None => true | Some _ => false end)
     use_ard fix_noise noise h' Hc) as (d' & E & B').
  - unfold decode, h', layout. cbn. split; [destruct fix_noise; reflexivity|]. split; [intros ->; reflexivity|].
    split; [destruct (h_dof h); split; congruence|].
    destruct (h_ls h); subst use_ard; split; intros; eauto; discriminate.
  - exists d'. split; [now apply convert_layout|]. split; [exact E|exact B'].
Qed.

(** ** ranges *)
Definition range_layout (dim : Z) (use_gp use_ard fix_noise : bool) : list (N * N) :=
  ((if fix_noise then [] else [RANGE_NOISE N]) ++ (if use_gp then [] else [RANGE_DOF N]) ++ [RANGE_SIGNAL N] ++
   (if use_ard then repeat (RANGE_LENGTHSCALES N) (Z.to_nat dim) else [RANGE_LENGTHSCALES N]))%list.

Lemma range_ok cov dim use_gp use_ard fix_noise : In cov cov_names ->
  get_range_hyps N cov dim use_gp use_ard fix_noise = Ok (range_layout dim use_gp use_ard fix_noise).
Proof.
  intros Hc. unfold get_range_hyps, range_layout.
  rewrite allowed_cov_names, list_first_names, (proj2 (str_in_In _ _) Hc). cbn [assert_ rbind].
  destruct use_gp, use_ard, fix_noise; reflexivity.
Qed.

Definition default_hyps (dim : Z) (use_gp use_ard : bool) : hypset N :=
  mkhyps (GP_NOISE N) (if use_gp then None else Some (nofZ N 5)) (nofZ N 1)
    (if use_ard then inl (repeat (nofZ N 1) (Z.to_nat dim)) else inr (nofZ N 1)).

Lemma get_hyps_ok cov dim use_gp use_ard : In cov cov_names -> (0 <= dim)%Z ->
  exists d, get_hyps N cov dim use_gp use_ard = Ok d /\ binds d (default_hyps dim use_gp use_ard).
Proof.
  intros Hc Hd. unfold get_hyps, default_hyps.
  rewrite allowed_cov_names, list_first_names, (proj2 (str_in_In _ _) Hc). cbn [assert_ rbind].
  destruct (Z.ltb_spec dim 0); [lia|].
  destruct use_gp, use_ard; eexists; (split; [reflexivity|]); repeat split.
Qed.

(** the literals are ordered *)
Definition literals_ok : Prop :=
  (nlt N (fst (RANGE_NOISE N)) (snd (RANGE_NOISE N)) = true /\ nle N (fst (RANGE_NOISE N)) (GP_NOISE N) = true /\ nle N (GP_NOISE N) (snd (RANGE_NOISE N)) = true) /\
  (nlt N (fst (RANGE_DOF N)) (snd (RANGE_DOF N)) = true /\ nle N (fst (RANGE_DOF N)) (nofZ N 5) = true /\ nle N (nofZ N 5) (snd (RANGE_DOF N)) = true) /\
  (nlt N (fst (RANGE_SIGNAL N)) (snd (RANGE_SIGNAL N)) = true /\ nle N (fst (RANGE_SIGNAL N)) (nofZ N 1) = true /\ nle N (nofZ N 1) (snd (RANGE_SIGNAL N)) = true) /\
  (nlt N (fst (RANGE_LENGTHSCALES N)) (snd (RANGE_LENGTHSCALES N)) = true /\ nle N (fst (RANGE_LENGTHSCALES N)) (nofZ N 1) = true /\ nle N (nofZ N 1) (snd (RANGE_LENGTHSCALES N)) = true).

Theorem defaults_feasible cov dim use_gp use_ard fix_noise :
  literals_ok -> In cov cov_names -> (0 <= dim)%Z ->
  exists d v r, get_hyps N cov dim use_gp use_ard = Ok d /\
    convert_hyps cov d use_gp fix_noise = Ok v /\
    get_range_hyps N cov dim use_gp use_ard fix_noise = Ok r /\
    List.length v = List.length r /\
    List.length v = ((if fix_noise then 0 else 1) + (if use_gp then 0 else 1) + 1 + (if use_ard then Z.to_nat dim else 1))%nat /\
    Forall2 (fun b x => nlt N (fst b) (snd b) = true /\ nle N (fst b) x = true /\ nle N x (snd b) = true) r v.
Proof.
  intros (L1 & L2 & L3 & L4) Hc Hd. destruct (get_hyps_ok cov dim use_gp use_ard Hc Hd) as (d & E & B).
  exists d, (layout fix_noise (default_hyps dim use_gp use_ard)), (range_layout dim use_gp use_ard fix_noise).
  split; [exact E|]. split.
  { rewrite <- (convert_layout cov d _ fix_noise Hc B). f_equal. cbn. destruct use_gp; reflexivity. }
  split; [now apply range_ok|].
  assert (F : Forall2 (fun b x => nlt N (fst b) (snd b) = true /\ nle N (fst b) x = true /\ nle N x (snd b) = true)
     (range_layout dim use_gp use_ard fix_noise) (layout fix_noise (default_hyps dim use_gp use_ard))).
  { unfold range_layout, layout, default_hyps. cbn [h_noise h_dof h_signal h_ls].
    repeat apply Forall2_app.
    - destruct fix_noise; repeat constructor; tauto.
    - destruct use_gp; repeat constructor; tauto.
    - repeat constructor; tauto.
    - destruct use_ard; [|repeat constructor; tauto]. induction (Z.to_nat dim); cbn; constructor; tauto. }
  split; [symmetry; now apply Forall2_len in F|]. split; [|exact F].
  unfold layout, default_hyps. cbn [h_noise h_dof h_signal h_ls]. rewrite !app_length.
  destruct fix_noise, use_gp, use_ard; cbn [List.length]; rewrite ?repeat_length; lia.
Qed.

(** ** validate_hyps_dict *)
Lemma dset_chain (d : dict N) k v k' : dget (dset d k v) k' = if (k =? k') then Some v else dget d k'.
Proof.
  destruct (String.eqb_spec k k') as [->|Ne]; [apply dget_dset_same|now apply dget_dset_other].
Qed.

Lemma validate_eq (d : dict N) cov dim use_gp : In cov cov_names ->
  (wellformed d dim use_gp ->
    exists d', validate_hyps_dict d cov dim use_gp = Ok d' /\
      forall k, dget d' k =
        if (k =? "noise") then option_map (fun v => match v with PFloat _ x => PFloat N (clamp_noise N x) | v => v end) (dget d k)
        else if (k =? "dof") && negb use_gp then option_map (fun v => match v with PFloat _ x => PFloat N (clamp_dof N x) | v => v end) (dget d k)
        else dget d k) /\
  (~ wellformed d dim use_gp -> validate_hyps_dict d cov dim use_gp = Raise ValueError).
Proof.
  intros Hc. unfold validate_hyps_dict.
  rewrite allowed_cov_names, (proj2 (str_in_In _ _) Hc). cbn [assert_ rbind].
  unfold wellformed, is_float.
  destruct (dget d "noise") as [[nz| |]|] eqn:En.
  2-4: (split; [intros ((x & H) & _); discriminate|reflexivity]).
  set (d1 := match ninf N with Some inf => if nle N inf (nabs N nz) then dset d "noise" (PFloat N inf) else d | None => d end).
  assert (G1 : forall k, dget d1 k = if k =? "noise" then Some (PFloat N (clamp_noise N nz)) else dget d k).
  { intros k. unfold d1, clamp_noise. destruct (ninf N) as [inf|].
    - destruct (nle N inf (nabs N nz)).
      + rewrite dset_chain, String.eqb_sym. reflexivity.
      + destruct (String.eqb_spec k "noise") as [->|]; [exact En|reflexivity].
    - destruct (String.eqb_spec k "noise") as [->|]; [exact En|reflexivity]. }
  clearbody d1.
  assert (G2 : exists r, (if use_gp then Ok d1 else match dget d1 "dof" with
                       | Some (PFloat _ nu) =>
                           Ok (if nle N nu (nofZ N 2) then dset d1 "dof" (PFloat N (nlit N 200001 100000)) else d1)
                       | _ => Raise ValueError
                       end) = r /\
     match r with
     | Ok d2 => (use_gp = false -> exists nu, dget d "dof" = Some (PFloat N nu)) /\
                (forall k, dget d2 k = if (k =? "dof") && negb use_gp then option_map (fun v => match v with PFloat _ x => PFloat N (clamp_dof N x) | v => v end) (dget d k) else dget d1 k)
     | Raise e => e = ValueError /\ use_gp = false /\ ~ exists nu, dget d "dof" = Some (PFloat N nu)
     end).
  { eexists. split; [reflexivity|]. destruct use_gp.
    - split; [discriminate|]. intros k. rewrite andb_false_r. reflexivity.
    - rewrite G1. cbn [String.eqb]. change ("dof" =? "noise") with false. cbn iota.
      destruct (dget d "dof") as [[nu| |]|] eqn:Ed.
      2-4: (split; [reflexivity|]; split; [reflexivity|]; intros (x & H); discriminate).
      split; [eauto|]. intros k. unfold clamp_dof. rewrite andb_true_r.
      destruct (nle N nu (nofZ N 2)) eqn:Enu.
      + rewrite dset_chain, String.eqb_sym. destruct (String.eqb_spec k "dof") as [->|]; [|reflexivity].
        rewrite Ed. cbn. now rewrite Enu.
      + destruct (String.eqb_spec k "dof") as [->|]; [|reflexivity].
        rewrite G1. change ("dof" =? "noise") with false. cbn iota. rewrite Ed. cbn. now rewrite Enu. }
  destruct G2 as (r & -> & G2). destruct r as [d2|e]; cbn [rbind].
  2:{ destruct G2 as (-> & -> & H). split; [|reflexivity]. intros (_ & _ & H' & _). exfalso. apply H. now apply H'. }
  destruct G2 as (Hdof & G2).
  assert (Gl : dget d2 "lengthscales" = dget d "lengthscales") by (rewrite G2, G1; reflexivity).
  assert (Gs : dget d2 "signal" = dget d "signal") by (rewrite G2, G1; reflexivity).
  rewrite Gl, Gs. clear Gl Gs.
  assert (Gk : forall k, dget d2 k =
        if (k =? "noise") then option_map (fun v => match v with PFloat _ x => PFloat N (clamp_noise N x) | v => v end) (dget d k)
        else if (k =? "dof") && negb use_gp then option_map (fun v => match v with PFloat _ x => PFloat N (clamp_dof N x) | v => v end) (dget d k)
        else dget d k).
  { intros k. rewrite G2, G1. destruct (String.eqb_spec k "noise") as [->|].
    - change ("noise" =? "dof") with false. cbn. now rewrite En.
    - reflexivity. }
  destruct (dget d "lengthscales") as [[x|l|t]|] eqn:El; cbn iota.
  - destruct (dget d "signal") as [[s| |]|] eqn:Es; cbn iota.
    + split; [eauto|]. intros H. exfalso. apply H. repeat split; eauto.
    + split; [intros (_ & (y & H) & _); discriminate|reflexivity].
    + split; [intros (_ & (y & H) & _); discriminate|reflexivity].
    + split; [intros (_ & (y & H) & _); discriminate|reflexivity].
  - destruct (Z.eqb_spec (Z.of_nat (List.length l)) dim) as [Ed|Ed]; cbn [negb].
    + destruct (dget d "signal") as [[s| |]|] eqn:Es; cbn iota.
      * split; [eauto|]. intros H. exfalso. apply H. repeat split; eauto.
      * split; [intros (_ & (y & H) & _); discriminate|reflexivity].
      * split; [intros (_ & (y & H) & _); discriminate|reflexivity].
      * split; [intros (_ & (y & H) & _); discriminate|reflexivity].
    + split; [|reflexivity]. intros (_ & _ & _ & [(y & H)|(l' & H & H')]); [discriminate|]. congruence.
  - split; [|reflexivity]. intros (_ & _ & _ & [(y & H)|(l' & H & H')]); discriminate.
  - split; [|reflexivity]. intros (_ & _ & _ & [(y & H)|(l' & H & H')]); discriminate.
Qed.
End Proofs.

(** idempotence needs: clamped values are not clamped again *)
Section Idem.
Context (N : Num).
Definition clamps_stable : Prop :=
  (forall x, clamp_noise N (clamp_noise N x) = clamp_noise N x) /\
  (forall x, clamp_dof N (clamp_dof N x) = clamp_dof N x).

Lemma classic_dec_wf (d : dict N) dim use_gp : wellformed d dim use_gp \/ ~ wellformed d dim use_gp.
Proof.
  unfold wellformed, is_float.
  destruct (dget d "noise") as [[nz| |]|]; try (right; intros ((x & H) & _); discriminate).
  destruct (dget d "signal") as [[s| |]|]; try (right; intros (_ & (x & H) & _); discriminate).
  assert (D : (use_gp = false -> exists x, dget d "dof" = Some (PFloat N x)) \/ ~ (use_gp = false -> exists x, dget d "dof" = Some (PFloat N x))).
  { destruct use_gp; [left; discriminate|]. destruct (dget d "dof") as [[nu| |]|]; try (right; intros H; destruct (H eq_refl); discriminate).
    left. eauto. }
  destruct D as [D|D]; [|right; tauto].
  destruct (dget d "lengthscales") as [[x|l|t]|].
  - left. repeat split; eauto.
  - destruct (Z.eq_dec (Z.of_nat (List.length l)) dim) as [E|E].
    + left. repeat split; eauto.
    + right. intros (_ & _ & _ & [(y & H)|(l' & H & H')]); congruence.
  - right. intros (_ & _ & _ & [(y & H)|(l' & H & H')]); discriminate.
  - right. intros (_ & _ & _ & [(y & H)|(l' & H & H')]); discriminate.
Qed.

Lemma wellformed_preserved (d d' : dict N) cov dim use_gp : In cov cov_names ->
  validate_hyps_dict d cov dim use_gp = Ok d' -> wellformed d dim use_gp /\ wellformed d' dim use_gp.
Proof.
  intros Hc E. destruct (validate_eq N d cov dim use_gp Hc) as [A B].
  assert (W : wellformed d dim use_gp).
  { destruct (classic_dec_wf d dim use_gp) as [W|W]; [exact W|]. rewrite (B W) in E. discriminate. }
  split; [exact W|]. destruct (A W) as (d2 & E2 & G). rewrite E in E2. apply Ok_inj in E2. subst d2.
  destruct W as ((nz & W1) & (s & W2) & W3 & W4). unfold wellformed, is_float. rewrite !G.
  change ("signal" =? "noise") with false. change ("signal" =? "dof") with false.
  change ("dof" =? "noise") with false. change ("lengthscales" =? "noise") with false.
  change ("lengthscales" =? "dof") with false. cbn [andb]. change ("noise" =? "noise") with true.
  change ("dof" =? "dof") with true. cbn iota. rewrite W1, W2. cbn [option_map].
  split; [eauto|]. split; [eauto|]. split; [|exact W4].
  intros U. destruct (W3 U) as (nu & E1). rewrite U. cbn [negb andb]. rewrite E1. cbn. eauto.
Qed.
End Idem.

Lemma literals_ok_R : literals_ok NumR.
Proof.
  unfold literals_ok, RANGE_NOISE, RANGE_DOF, RANGE_SIGNAL, RANGE_LENGTHSCALES, GP_NOISE, nlit; cbn [fst snd NumR nlt nle nofZ ndiv car].
  repeat split; first [apply Rlt_bool_true; lra|apply Rle_bool_true; lra].
Qed.

Lemma literals_ok_F : literals_ok NumF.
Proof. unfold literals_ok. repeat split; vm_compute; reflexivity. Qed.

Lemma clamps_stable_R : clamps_stable NumR.
Proof.
  split; [reflexivity|]. intros x. unfold clamp_dof. cbn [NumR nle nofZ].
  destruct (Rle_bool_spec x 2).
  - rewrite Rle_bool_false; [reflexivity|]. unfold nlit; cbn [NumR ndiv nofZ car]. lra.
  - rewrite Rle_bool_false; [reflexivity|lra].
Qed.

Lemma clamps_stable_F : clamps_stable NumF.
Proof.
  split; intros x.
  - unfold clamp_noise. cbn [ninf NumF]. destruct (nle NumF finf (nabs NumF x)) eqn:E.
    + replace (nle NumF finf (nabs NumF finf)) with true by reflexivity. reflexivity.
    + rewrite E. reflexivity.
  - unfold clamp_dof. destruct (nle NumF x (nofZ NumF 2)) eqn:E.
    + replace (nle NumF (nlit NumF 200001 100000) (nofZ NumF 2)) with false by (vm_compute; reflexivity). reflexivity.
    + rewrite E. reflexivity.
Qed.

Theorem validate_idem (N : Num) (S : clamps_stable N) (d d' : dict N) cov dim use_gp : In cov cov_names ->
  validate_hyps_dict d cov dim use_gp = Ok d' ->
  exists d'', validate_hyps_dict d' cov dim use_gp = Ok d'' /\ forall k, dget d'' k = dget d' k.
Proof.
  intros Hc E. destruct (wellformed_preserved N d d' cov dim use_gp Hc E) as [W W'].
  destruct (validate_eq N d cov dim use_gp Hc) as [A _]. destruct (A W) as (d1 & E1 & G).
  rewrite E in E1. apply Ok_inj in E1. subst d1.
  destruct (validate_eq N d' cov dim use_gp Hc) as [A' _]. destruct (A' W') as (d2 & E2 & G').
  exists d2. split; [exact E2|]. intros k. rewrite G', !G.
  destruct S as [S1 S2].
  destruct (k =? "noise").
  - destruct (dget d k) as [[x| |]|]; cbn; rewrite ?S1; reflexivity.
  - destruct ((k =? "dof") && negb use_gp); [|reflexivity].
    destruct (dget d k) as [[x| |]|]; cbn; rewrite ?S2; reflexivity.
Qed.

(** ** convergence *)
Lemma nnorm_R (l : list R) : nnorm NumR l = norm2 l.
Proof. unfold nnorm, norm2. rewrite nsum_R. reflexivity. Qed.

Lemma vsub_dist (a b : list R) : nnorm NumR (vsub NumR a b) = dist2 a b.
Proof. unfold nnorm, vsub, dist2. rewrite nsum_R, map_map. reflexivity. Qed.

Lemma gp_convert (N : Num) cov (d : dict N) h fix_noise : In cov cov_names -> binds d h ->
  convert_hyps cov d true fix_noise = Ok (layout fix_noise (mkhyps (h_noise h) None (h_signal h) (h_ls h))).
Proof.
  intros Hc (Hn & Hd & Hs & Hl). unfold convert_hyps, dfloat.
  rewrite allowed_cov_names, list_first_names, (proj2 (str_in_In _ _) Hc). cbn [assert_ rbind].
  rewrite Hn, Hs, Hl. unfold layout. destruct fix_noise, (h_ls h); reflexivity.
Qed.

Theorem convergence_spec cov (hist : list (dict NumR)) (last new : dict NumR) (hl hn : hypset NumR) fix_noise (ratio : R) :
  In cov cov_names -> binds last hl -> binds new hn ->
  h_dof hl = None -> h_dof hn = None ->
  List.length (layout true hl) = List.length (layout true hn) ->
  exists b, check_hyps_convergence (N:=NumR) (hist ++ [last]) new cov fix_noise ratio = Ok b /\
    (b = true <-> (dist2 (layout fix_noise hn) (layout fix_noise hl) < norm2 (layout fix_noise hl) * ratio)%R).
Proof.
  intros Hc Bl Bn Dl Dn L. unfold check_hyps_convergence. rewrite rev_app_distr. cbn [rev app].
  rewrite (gp_convert NumR cov new hn fix_noise Hc Bn), (gp_convert NumR cov last hl fix_noise Hc Bl). cbn [rbind].
  assert (El : layout fix_noise (mkhyps (h_noise hl) None (h_signal hl) (h_ls hl)) = layout fix_noise hl)
    by (unfold layout; cbn; now rewrite Dl).
  assert (En : layout fix_noise (mkhyps (h_noise hn) None (h_signal hn) (h_ls hn)) = layout fix_noise hn)
    by (unfold layout; cbn; now rewrite Dn).
  rewrite El, En.
  assert (L' : List.length (layout fix_noise hn) = List.length (layout fix_noise hl)).
  { unfold layout in *. rewrite Dl, Dn in *. rewrite !app_length in *. destruct fix_noise; cbn [List.length Nat.add] in *; lia. }
  rewrite L', Nat.eqb_refl. eexists. split; [reflexivity|].
  rewrite vsub_dist, nnorm_R. cbn [NumR nlt nmul].
  destruct (Rlt_bool_spec (dist2 (layout fix_noise hn) (layout fix_noise hl)) (norm2 (layout fix_noise hl) * ratio)).
  - split; auto.
  - split; [discriminate|]. intros; lra.
Qed.

(** ** check_str_cov *)
Theorem check_str_cov_spec cov s1 s2 :
  let ranks n := List.length s1 = n /\ (forall s, s2 = Some s -> List.length s = n) in
  (check_str_cov cov s1 s2 = Ok tt <-> (In cov base_names /\ ranks 2%nat) \/ (In cov set_names /\ ranks 3%nat)) /\
  (check_str_cov cov s1 s2 = Raise ValueError <-> ~ In cov base_names /\ ~ In cov set_names) /\
  (check_str_cov cov s1 s2 = Raise AssertionError <->
     (In cov base_names /\ ~ ranks 2%nat) \/ (In cov set_names /\ ~ ranks 3%nat)).
Proof.
  intros ranks. assert (Disj : forall c, In c base_names -> In c set_names -> False).
  { intros c H1 H2. cbn in *. intuition (subst; discriminate). }
  unfold check_str_cov. change ALLOWED_COV_BASE with base_names. change ALLOWED_COV_SET with set_names.
  assert (Sh : forall n, assert_ (Nat.eqb (List.length s1) n) = Ok tt /\ match s2 with Some s => assert_ (Nat.eqb (List.length s) n) | None => Ok tt end = Ok tt /\ ranks n
     \/ (rbind (assert_ (Nat.eqb (List.length s1) n)) (fun _ => match s2 with Some s => assert_ (Nat.eqb (List.length s) n) | None => Ok tt end) = Raise AssertionError /\ ~ ranks n)).
  { intros n. unfold ranks. destruct (Nat.eqb_spec (List.length s1) n) as [E|E]; cbn [assert_ rbind].
    - destruct s2 as [s|].
      + destruct (Nat.eqb_spec (List.length s) n) as [E'|E']; cbn [assert_].
        * left. repeat split; auto. intros s' H. inversion H. now subst.
        * right. split; [reflexivity|]. intros [_ H]. apply E'. now apply H.
      + left. repeat split; auto. discriminate.
    - right. split; [reflexivity|]. tauto. }
  destruct (str_in cov base_names) eqn:Eb.
  - apply str_in_In in Eb. pose proof (Disj cov Eb) as Nb.
    destruct (Sh 2%nat) as [(-> & H2 & H3)|(H & H3)]; cbn [rbind].
    + rewrite H2. split; [|split]; split; try discriminate; try tauto.
    + rewrite H. split; [|split]; split; try discriminate; try tauto.
  - assert (Nb : ~ In cov base_names) by (rewrite <- str_in_In; congruence).
    destruct (str_in cov set_names) eqn:Es.
    + apply str_in_In in Es.
      destruct (Sh 3%nat) as [(-> & H2 & H3)|(H & H3)]; cbn [rbind].
      * rewrite H2. split; [|split]; split; try discriminate; try tauto.
      * rewrite H. split; [|split]; split; try discriminate; try tauto.
    + assert (Ns : ~ In cov set_names) by (rewrite <- str_in_In; congruence).
      destruct (str_in cov ALLOWED_COV); split; [|split| |split]; split; try discriminate; try tauto.
Qed.
