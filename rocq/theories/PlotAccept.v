(** Which arguments plot_minimum_vs_iter turns into a figure. *)
From Verif Require Import Base Lists Num NumLaws Monad UtilsModel UtilsSpec UtilsProofs PlotModel PlotSpec PlotProofs.
From Coq Require Import List ZArith Bool String Lia Arith.
Import ListNotations.
Set Implicit Arguments.

Section Accept.
Context (N : Num) (i : N) (HI : ninf N = Some i).
Context (ncolors nmarkers : nat) (num_init : Z) (n : nat) (draw_std include_marker : bool) (range_shade : N).

Let body := fun e : nat * (list (list N) * string) =>
      let '(k, (rounds, label)) := e in
      mlet ind_color <- index_mod N k ncolors; mlet ind_marker <- index_mod N k nmarkers;
      mlet o <- lift (get_minimum N (mkmat rounds n) num_init);
      mlet _ <- curve N ind_color ind_marker ncolors label (map (nofnat N) (seq 0 (List.length (mo_mean o)))) o draw_std include_marker range_shade;
      ret (List.length (mo_mean o)).

Lemma body_ok k rounds label : (0 < ncolors)%nat -> (0 < nmarkers)%nat -> (num_init < Z.of_nat n)%Z -> rounds <> [] ->
  exists t l, body (k, (rounds, label)) tt = (tt, t, Ok l).
Proof.
  intros HC HM HK HR. pose proof (proj2 (@get_minimum_succeeds N (mkmat rounds n) num_init i HI) (conj HK HR)) as E.
  destruct (get_minimum N (mkmat rounds n) num_init) as [o|] eqn:Eo; [|discriminate]. unfold body.
  eexists. eexists. eapply bind_run2; [apply index_run; exact HC|]. eapply bind_run2; [apply index_run; exact HM|]. rewrite Eo.
  eapply bind_run2; [reflexivity|]. eapply bind_run2; [apply curve_run; [exact HC|rewrite map_length, seq_length; reflexivity]|reflexivity].
Qed.
Lemma loop_ok es : (0 < ncolors)%nat -> (0 < nmarkers)%nat -> (num_init < Z.of_nat n)%Z -> (forall e, In e (map (fun q => fst (snd q)) es) -> e <> []) ->
  exists t l, mmapM body es tt = (tt, t, Ok l) /\ List.length l = List.length es.
Proof.
  intros HC HM HK. induction es as [|[k [e label]] es IH]; intros HE; [exists [], []; split; reflexivity|].
  destruct IH as (t & l & E & L); [intros; apply HE; now right|].
  destruct (@body_ok k e label HC HM HK (HE e (or_introl eq_refl))) as (t1 & l1 & E1). eexists. exists (l1 :: l). cbn [mmapM].
  split; [eapply bind_run2; [exact E1|]; eapply bind_run2; [exact E|reflexivity]|cbn; lia].
Qed.
End Accept.

Lemma combine_fst {A B} (l : list A) (l' : list B) : List.length l = List.length l' -> map fst (combine l l') = l.
Proof. revert l'. induction l as [|a l IH]; intros [|b l'] H; try discriminate; [reflexivity|]. cbn. f_equal. apply IH. cbn in H. lia. Qed.
Lemma combine_snd {A B} (l : list A) (l' : list B) : List.length l = List.length l' -> map snd (combine l l') = l'.
Proof. revert l'. induction l as [|a l IH]; intros [|b l'] H; try discriminate; [reflexivity|]. cbn. f_equal. apply IH. cbn in H. lia. Qed.

Theorem vs_iter_accepts (N : Num) i ncolors nmarkers (minima : cube N) labels num_init ds im il p s range_shade : ninf N = Some i -> cube_wf minima ->
  (snd (plot_minimum_vs_iter N true ncolors nmarkers minima labels num_init ds im il p s range_shade tt) = Ok tt <->
   List.length labels = List.length (cexps minima) /\ cexps minima <> [] /\ (0 < crounds minima)%nat /\ (num_init < Z.of_nat (ccols minima))%Z /\
   (0 < ncolors)%nat /\ (0 < nmarkers)%nat).
Proof.
  intros HI WF. unfold plot_minimum_vs_iter. split.
  - destruct (Nat.eqb_spec (List.length (cexps minima)) (List.length labels)) as [EL|]; [|discriminate].
    destruct (Z.leb_spec num_init (Z.of_nat (ccols minima))); [|discriminate]. intros H'. split; [auto|].
    destruct (cexps minima) as [|e es] eqn:EC; [discriminate|]. split; [discriminate|].
    destruct labels as [|label labels]; [discriminate|]. cbn [List.length seq combine mmapM] in H'.
    destruct ncolors as [|c]; [discriminate|]. destruct nmarkers as [|m]; [discriminate|].
    assert (G : is_ok (get_minimum N (mkmat e (ccols minima)) num_init) = true) by (destruct (get_minimum N (mkmat e (ccols minima)) num_init); [reflexivity|discriminate]).
    apply (@get_minimum_succeeds N _ num_init i HI) in G as [G1 G2]. cbn [mcols mrows] in G1, G2.
    destruct (WF e) as [WE _]; [rewrite EC; now left|]. split; [destruct e; [congruence|cbn in WE; lia]|]. split; [exact G1|]. split; lia.
  - intros (HL & HN & HR & HK & HC & HM). rewrite HL, Nat.eqb_refl. destruct (Z.leb_spec num_init (Z.of_nat (ccols minima))); [|lia].
    edestruct (@loop_ok N i HI ncolors nmarkers num_init (ccols minima) ds im range_shade (combine (seq 0 (List.length (cexps minima))) (combine (cexps minima) labels)) HC HM HK) as (t & l & E & L).
    { intros e He. rewrite <- map_map with (f := snd) (g := fst) in He. rewrite combine_snd in He by (rewrite seq_length, combine_length; lia).
      rewrite combine_fst in He by lia. destruct (WF e He) as [WE _]. intros ->. cbn in WE. lia. }
    assert (L2 : List.length l = List.length (cexps minima)) by (rewrite L, !combine_length, seq_length; lia).
    destruct (rev l) as [|q l'] eqn:ER; [apply (f_equal (@List.length _)) in ER; rewrite rev_length in ER; destruct (cexps minima); [congruence|cbn in *; lia]|].
    erewrite bind_run2 with (t1 := []); [|reflexivity|]; [|erewrite bind_run2 with (t1 := []); [|reflexivity|]; [reflexivity|]]; [reflexivity|].
    cbn [negb]. eapply bind_run2; [exact E|]. rewrite ER. eapply bind_run2 with (t1 := []); [reflexivity|].
    eapply bind_run2; [reflexivity|]. apply finish_run.
Qed.

(** num_init equal to the number of values per round passes the checks of the function but not those of get_minimum *)
Theorem vs_iter_equal_num_init (N : Num) ncolors nmarkers (minima : cube N) labels ds im il p s range_shade :
  List.length labels = List.length (cexps minima) -> cexps minima <> [] -> (0 < ncolors)%nat -> (0 < nmarkers)%nat ->
  plot_minimum_vs_iter N false ncolors nmarkers minima labels (Z.of_nat (ccols minima)) ds im il p s range_shade tt = (tt, [], Ok tt) /\
  plot_minimum_vs_iter N true ncolors nmarkers minima labels (Z.of_nat (ccols minima)) ds im il p s range_shade tt = (tt, [], Raise AssertionError).
Proof.
  intros HL HN HC HM. unfold plot_minimum_vs_iter. rewrite HL, Nat.eqb_refl, Z.leb_refl. split; [reflexivity|].
  cbn [assert_ negb]. do 2 (eapply bind_run2 with (t1 := []); [reflexivity|]). apply bind_stop.
  destruct (cexps minima) as [|e es]; [congruence|]. destruct labels as [|label labels]; [discriminate|]. cbn [List.length seq combine mmapM].
  apply bind_stop. eapply bind_run2 with (t1 := []); [apply index_run; exact HC|]. eapply bind_run2 with (t1 := []); [apply index_run; exact HM|].
  apply bind_stop. unfold get_minimum. cbn [mcols]. rewrite Z.ltb_irrefl. reflexivity.
Qed.
(** no experiments: the loop variables are never bound *)
Theorem vs_iter_no_experiments (N : Num) ncolors nmarkers num_init r n ds im il p s range_shade : (num_init <= Z.of_nat n)%Z ->
  plot_minimum_vs_iter N false ncolors nmarkers (mkcube [] r n) [] num_init ds im il p s range_shade tt = (tt, [], Ok tt) /\
  plot_minimum_vs_iter N true ncolors nmarkers (mkcube [] r n) [] num_init ds im il p s range_shade tt = (tt, [], Raise UnboundLocalError).
Proof.
  intros H. unfold plot_minimum_vs_iter. cbn [cexps ccols List.length Nat.eqb]. apply Z.leb_le in H. rewrite H. split; reflexivity.
Qed.
