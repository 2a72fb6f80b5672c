(** Property theorems about hyperparameter handling (C14, C18-C21). *)
From Verif Require Import Base Lists Num NumLaws UtilsModel UtilsSpec HypsModel HypsSpec HypsProofs.
From Coq Require Import List ZArith Bool String Reals Lra Lia.
From Flocq Require Import Core.Raux.
Local Open Scope string_scope.

(** C14 *)
Theorem hyps_convergence_relative_distance :
  forall cov (hist : list (dict NumR)) (last new : dict NumR) (hl hn : hypset NumR) fix_noise (ratio : R),
  In cov cov_names -> binds last hl -> binds new hn ->
  h_dof hl = None -> h_dof hn = None ->
  List.length (layout true hl) = List.length (layout true hn) ->
  exists b, check_hyps_convergence (N:=NumR) (hist ++ [last]) new cov fix_noise ratio = Ok b /\
    (b = true <-> (dist2 (layout fix_noise hn) (layout fix_noise hl) < norm2 (layout fix_noise hl) * ratio)%R).
Proof. exact convergence_spec. Qed.
Print Assumptions hyps_convergence_relative_distance.

Theorem hyps_convergence_empty_history :
  forall (N : Num) (new : dict N) cov fix_noise ratio,
  check_hyps_convergence [] new cov fix_noise ratio = Ok false.
Proof. reflexivity. Qed.
Print Assumptions hyps_convergence_empty_history.

Example hyps_convergence_case :
  let d (s l : R) : dict NumR := [("noise", PFloat NumR (1/100)%R); ("signal", PFloat NumR s); ("lengthscales", PFloat NumR l)] in
  check_hyps_convergence (N:=NumR) [d 9%R 9%R; d 3%R 4%R] (d 3%R 4%R) "se" true (1/20)%R = Ok true.
Proof.
  intros d.
  destruct (hyps_convergence_relative_distance "se" [d 9%R 9%R] (d 3%R 4%R) (d 3%R 4%R)
    (mkhyps (N:=NumR) (1/100)%R None 3%R (inr 4%R)) (mkhyps (N:=NumR) (1/100)%R None 3%R (inr 4%R)) true (1/20)%R)
    as (b & E & H); try reflexivity; try (repeat split; fail); try (cbn; tauto).
  cbn [app] in E. rewrite E. f_equal. apply H. unfold dist2, norm2, layout. cbn.
  replace (sqrt _) with 0%R; [|symmetry; replace (_ + _)%R with 0%R by lra; apply sqrt_0].
  apply Rmult_lt_0_compat; [apply sqrt_lt_R0; lra|lra].
Qed.

(** C18 *)
Theorem restore_after_convert :
  forall (N : Num) cov (d : dict N) h use_ard fix_noise noise,
  In cov cov_names -> binds d h ->
  (match h_ls h with inl _ => use_ard = true | inr _ => use_ard = false end) ->
  exists v d', convert_hyps cov d (match h_dof h with None => true | Some _ => false end) fix_noise = Ok v /\
    restore_hyps N cov v (match h_dof h with None => true | Some _ => false end) use_ard fix_noise noise = Ok d' /\
    binds d' (mkhyps (if fix_noise then noise else h_noise h) (h_dof h) (h_signal h) (h_ls h)).
Proof. exact restore_convert. Qed.
Print Assumptions restore_after_convert.

Theorem convert_after_restore :
  forall (N : Num) cov (v : list N) use_gp use_ard fix_noise noise,
  In cov cov_names -> admissible use_gp use_ard fix_noise (List.length v) ->
  exists d, restore_hyps N cov v use_gp use_ard fix_noise noise = Ok d /\
            convert_hyps cov d use_gp fix_noise = Ok v /\
            (fix_noise = true -> dget d "noise" = Some (PFloat N noise)).
Proof. exact convert_restore. Qed.
Print Assumptions convert_after_restore.

(** the order of the vector is noise, dof, signal, lengthscales *)
Theorem convert_order :
  forall (N : Num) cov (d : dict N) h fix_noise,
  In cov cov_names -> binds d h ->
  convert_hyps cov d (match h_dof h with None => true | Some _ => false end) fix_noise = Ok (layout fix_noise h).
Proof. exact convert_layout. Qed.
Print Assumptions convert_order.

Example convert_case :
  convert_hyps (N:=NumF) "matern52" [("signal", PFloat NumF (fofZ 2)); ("dof", PFloat NumF (fofZ 7));
     ("lengthscales", PArr NumF [fofZ 3; fofZ 4]); ("noise", PFloat NumF (fofZ 9))] false false
  = Ok [fofZ 9; fofZ 7; fofZ 2; fofZ 3; fofZ 4].
Proof. reflexivity. Qed.

(** a dictionary whose entries have the right types is converted or lacks a required name, and then KeyError is raised *)
Definition typed {N : Num} (d : dict N) : Prop :=
  (forall k v, In k ["noise"; "dof"; "signal"] -> dget d k = Some v -> exists x, v = PFloat N x) /\
  (forall v, dget d "lengthscales" = Some v -> (exists x, v = PFloat N x) \/ exists l, v = PArr N l).
Definition required (use_gp fix_noise : bool) : list string :=
  ((if fix_noise then [] else ["noise"]) ++ (if use_gp then [] else ["dof"]) ++ ["signal"; "lengthscales"])%list.
Theorem convert_missing :
  forall (N : Num) cov (d : dict N) use_gp fix_noise,
  In cov cov_names -> typed d ->
  (convert_hyps cov d use_gp fix_noise = Raise KeyError <-> exists k, In k (required use_gp fix_noise) /\ dget d k = None) /\
  (convert_hyps cov d use_gp fix_noise <> Raise KeyError -> exists v, convert_hyps cov d use_gp fix_noise = Ok v).
Proof.
  intros N cov d g fx HC (H1 & H2).
  assert (F : forall k, In k ["noise"; "dof"; "signal"] -> (dget d k = None /\ dfloat d k = Raise KeyError) \/ exists x, dget d k = Some (PFloat N x) /\ dfloat d k = Ok x).
  { intros k Hk. unfold dfloat. destruct (dget d k) as [v|] eqn:E; [|left; now split]. right. destruct (H1 k v Hk E) as (x & ->). now exists x. }
  assert (L : dget d "lengthscales" = None \/ exists v, dget d "lengthscales" = Some v /\ ((exists x, v = PFloat N x) \/ exists l, v = PArr N l)).
  { destruct (dget d "lengthscales") as [v|] eqn:E; [right; exists v; split; [reflexivity|now apply H2]|now left]. }
  assert (A : str_in cov ALLOWED_COV = true /\ str_in cov list_first = true).
  { cbn in HC. repeat (destruct HC as [<-|HC]; [now split|]). destruct HC. }
  destruct A as (A1 & A2). unfold convert_hyps. rewrite A1, A2. cbn [assert_ rbind].
  assert (FN := F "noise" (or_introl eq_refl)). assert (FD := F "dof" (or_intror (or_introl eq_refl))). assert (FS := F "signal" (or_intror (or_intror (or_introl eq_refl)))). clear F H1 H2.
  assert (K : forall (r : res (list N)) (P : Prop), (r = Raise KeyError /\ P) \/ ((exists v, r = Ok v) /\ ~ P) -> (r = Raise KeyError <-> P) /\ (r <> Raise KeyError -> exists v, r = Ok v)).
  { intros r P [(-> & HP)|((v & ->) & HP)]; (split; [split|]); try tauto; try discriminate; eauto. }
  apply K. clear K.
  destruct fx, g; cbn [required app rbind];
    repeat match goal with
    | H : (dget d ?k = None /\ _) \/ _ |- _ => destruct H as [[? H]|(? & ? & H)]; rewrite ?H; cbn [rbind]
    | H : dget d _ = None \/ _ |- _ => destruct H as [H|(? & H & [(? & ->)|(? & ->)])]; rewrite ?H; cbn [rbind]
    end;
    first [ left; split; [reflexivity|]; match goal with H : dget d ?k = None |- _ => exists k; split; [cbn; tauto|exact H] end
          | right; split; [eexists; reflexivity|]; intros (k & Hk & E); cbn in Hk; intuition (subst; congruence) ].
Qed.
Print Assumptions convert_missing.

Example convert_missing_case : typed (N := NumF) [("signal", PFloat NumF (fofZ 2)); ("lengthscales", PArr NumF [fofZ 3])] /\
  convert_hyps (N := NumF) "matern32" [("signal", PFloat NumF (fofZ 2)); ("lengthscales", PArr NumF [fofZ 3])] true false = Raise KeyError /\
  convert_hyps (N := NumF) "matern32" [("signal", PFloat NumF (fofZ 2)); ("lengthscales", PArr NumF [fofZ 3])] true true = Ok [fofZ 2; fofZ 3].
Proof.
  split; [|split; reflexivity]. split.
  - intros k v [<-|[<-|[<-|[]]]]; cbn; intros E; try discriminate. injection E as <-. eauto.
  - cbn. intros v E. injection E as <-. eauto.
Qed.

(** C19 *)
Theorem default_hyps_inside_ranges :
  forall (N : Num) cov dim use_gp use_ard fix_noise,
  N = NumR \/ N = NumF -> In cov cov_names -> (0 <= dim)%Z ->
  exists d v r, get_hyps N cov dim use_gp use_ard = Ok d /\
    convert_hyps cov d use_gp fix_noise = Ok v /\
    get_range_hyps N cov dim use_gp use_ard fix_noise = Ok r /\
    List.length v = List.length r /\
    List.length v = ((if fix_noise then 0 else 1) + (if use_gp then 0 else 1) + 1 + (if use_ard then Z.to_nat dim else 1))%nat /\
    Forall2 (fun b x => nlt N (fst b) (snd b) = true /\ nle N (fst b) x = true /\ nle N x (snd b) = true) r v.
Proof.
  intros N cov dim g a f H. apply defaults_feasible.
  destruct H as [->| ->]; [exact literals_ok_R|exact literals_ok_F].
Qed.
Print Assumptions default_hyps_inside_ranges.

Example default_hyps_case : In "set_matern32" cov_names /\ (0 <= 3)%Z.
Proof. cbn; split; [tauto|lia]. Qed.

(** C20 *)
Theorem validate_accepts_wellformed :
  forall (N : Num) (d : dict N) cov dim use_gp, In cov cov_names ->
  (wellformed d dim use_gp ->
    exists d', validate_hyps_dict d cov dim use_gp = Ok d' /\
      forall k, dget d' k =
        if (k =? "noise") then option_map (fun v => match v with PFloat _ x => PFloat N (clamp_noise N x) | v => v end) (dget d k)
        else if (k =? "dof") && negb use_gp then option_map (fun v => match v with PFloat _ x => PFloat N (clamp_dof N x) | v => v end) (dget d k)
        else dget d k) /\
  (~ wellformed d dim use_gp -> validate_hyps_dict d cov dim use_gp = Raise ValueError).
Proof. exact validate_eq. Qed.
Print Assumptions validate_accepts_wellformed.

Theorem validate_idempotent :
  forall (N : Num) (d d' : dict N) cov dim use_gp, N = NumR \/ N = NumF -> In cov cov_names ->
  validate_hyps_dict d cov dim use_gp = Ok d' ->
  exists d'', validate_hyps_dict d' cov dim use_gp = Ok d'' /\ forall k, dget d'' k = dget d' k.
Proof.
  intros N d d' cov dim g H. apply validate_idem.
  destruct H as [->| ->]; [exact clamps_stable_R|exact clamps_stable_F].
Qed.
Print Assumptions validate_idempotent.

(** after validation the degrees of freedom are not [<= 2] (a NaN stays) *)
Theorem validate_dof_above_two :
  forall (N : Num) (d d' : dict N) cov dim nu, N = NumR \/ N = NumF -> In cov cov_names ->
  validate_hyps_dict d cov dim false = Ok d' -> dget d' "dof" = Some (PFloat N nu) ->
  nle N nu (nofZ N 2) = false.
Proof.
  intros N d d' cov dim nu H Hc E G. destruct (validate_eq N d cov dim false Hc) as [A _].
  destruct (wellformed_preserved N d d' cov dim false Hc E) as [W _].
  destruct (A W) as (d1 & E1 & K). rewrite E in E1. apply Ok_inj in E1. subst d1.
  rewrite K in G. cbn in G. destruct (dget d "dof") as [[x| |]|]; try discriminate. cbn in G.
  inversion G as [G']. unfold clamp_dof. destruct (nle N x (nofZ N 2)) eqn:F; [|exact F].
  destruct H as [->| ->]; [|vm_compute; reflexivity].
  cbn [NumR nle]. apply Rle_bool_false. unfold nlit; cbn [NumR ndiv nofZ car]. lra.
Qed.
Print Assumptions validate_dof_above_two.

(** what clamping does *)
Theorem clamping_meaning :
  (forall x : NumF, (clamp_noise NumF x = finf /\ (x = finf \/ x = nopp NumF finf)) \/
                    (clamp_noise NumF x = x /\ x <> nopp NumF finf)) /\
  (forall x : NumF, clamp_dof NumF x = if nle NumF x (nofZ NumF 2) then nlit NumF 200001 100000 else x).
Proof.
  split; [|reflexivity].
  intros [s|s| |s m e p].
  - right. split; [destruct s; reflexivity|discriminate].
  - destruct s; left; split; try reflexivity; auto.
  - right. split; [reflexivity|discriminate].
  - right. split; [destruct s; reflexivity|discriminate].
Qed.
Print Assumptions clamping_meaning.

Example validate_case :
  wellformed (N:=NumF) [("noise", PFloat NumF (nopp NumF finf)); ("dof", PFloat NumF (fofZ 1));
     ("lengthscales", PArr NumF [fofZ 3; fofZ 4]); ("signal", PFloat NumF (fofZ 9))] 2 false /\
  ~ wellformed (N:=NumF) [("noise", PFloat NumF (fofZ 1)); ("lengthscales", PFloat NumF (fofZ 4)); ("signal", POther NumF 1)] 2 true.
Proof.
  split.
  - unfold wellformed, is_float; cbn; repeat split; eauto.
  - intros (_ & (x & H) & _). discriminate.
Qed.

(** C21 *)
Theorem check_str_cov_ranks :
  forall cov s1 s2,
  let ranks n := List.length s1 = n /\ (forall s, s2 = Some s -> List.length s = n) in
  (check_str_cov cov s1 s2 = Ok tt <-> (In cov base_names /\ ranks 2%nat) \/ (In cov set_names /\ ranks 3%nat)) /\
  (check_str_cov cov s1 s2 = Raise ValueError <-> ~ In cov base_names /\ ~ In cov set_names) /\
  (check_str_cov cov s1 s2 = Raise AssertionError <->
     (In cov base_names /\ ~ ranks 2%nat) \/ (In cov set_names /\ ~ ranks 3%nat)).
Proof. exact check_str_cov_spec. Qed.
Print Assumptions check_str_cov_ranks.

Example check_str_cov_case :
  check_str_cov "set_se" [4; 3; 2] (Some [1; 3; 2]) = Ok tt /\
  check_str_cov "set_se" [4; 3; 2] (Some [3; 2]) = Raise AssertionError /\
  check_str_cov "rbf" [4; 3] None = Raise ValueError.
Proof. repeat split. Qed.
