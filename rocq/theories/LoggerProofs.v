(** Proofs about utils_logger.py. *)
From Verif Require Import Base LoggerModel LoggerSpec.
From Coq Require Import List ZArith Bool Ascii String Lia Arith.
Set Implicit Arguments.
Local Open Scope string_scope.

Lemma sapp_assoc (a b c : string) : (a ++ b) ++ c = a ++ (b ++ c).
Proof. induction a as [|x a IH]; cbn; [reflexivity|now rewrite IH]. Qed.
Lemma sapp_nil (a : string) : a ++ "" = a.
Proof. induction a as [|x a IH]; cbn; [reflexivity|now rewrite IH]. Qed.

Section TreeInd.
Variable P : tree -> Prop.
Hypotheses (HL : forall s, P (Leaf s)) (HN : forall l, Forall P l -> P (Node l)).
Fixpoint tree_ind' (t : tree) : P t :=
  match t with
  | Leaf s => HL s
  | Node l => HN ((fix go l : Forall P l := match l with [] => Forall_nil _ | x :: r => Forall_cons _ (tree_ind' x) (go r) end) l)
  end.
End TreeInd.

(** formatted trees *)
Definition sep_of (t : tree) : string := match t with Leaf _ => ", " | Node _ => "," ++ nl end.
Fixpoint show (t : tree) : string :=
  match t with
  | Leaf s => s
  | Node [] => "[]"
  | Node (x :: l) => "[" ++ show x ++ (fix tail l := match l with [] => "" | y :: r => sep_of x ++ show y ++ tail r end) l ++ "]"
  end.
Definition tail_str (sep : string) (l : list tree) : string := fold_right (fun t r => sep ++ show t ++ r) "" l.
Lemma show_node x l : show (Node (x :: l)) = "[" ++ show x ++ tail_str (sep_of x) l ++ "]".
Proof.
  cbn [show]. assert (E : forall sep m, (fix tail l := match l with [] => "" | y :: r => sep ++ show y ++ tail r end) m = tail_str sep m).
  { intros sep m. induction m as [|y r IH]; [reflexivity|]. unfold tail_str in *. cbn [fold_right]. now rewrite <- IH. }
  now rewrite E.
Qed.
Lemma concat_tail sep f (l : list tree) x : (forall t, f t = show t) -> concat sep (map f (x :: l)) = show x ++ tail_str sep l.
Proof.
  intros E. revert x. induction l as [|y l IH]; intros x.
  - cbn. now rewrite E, sapp_nil.
  - cbn [map]. change (concat sep (f x :: f y :: map f l)) with (f x ++ sep ++ concat sep (f y :: map f l)).
    change (f y :: map f l) with (map f (y :: l)). rewrite IH, E. reflexivity.
Qed.
Lemma show_concat l : (forall x y, In x l -> In y l -> sep_of x = sep_of y) ->
  show (Node l) = "[" ++ concat (match l with [] => ", " | x :: _ => sep_of x end) (map show l) ++ "]".
Proof. intros _. destruct l as [|x l]; [reflexivity|]. rewrite show_node, concat_tail by reflexivity. now rewrite sapp_assoc. Qed.

Fixpoint good (t : tree) : Prop :=
  match t with
  | Leaf s => plain s
  | Node l => (fix all l := match l with [] => True | x :: r => good x /\ all r end) l
  end.
Lemma good_node l : good (Node l) <-> Forall good l.
Proof.
  induction l as [|x l IH]; [split; constructor|]. split.
  - intros (H & K). constructor; [exact H|]. now apply IH.
  - intros H. inversion H; subst. split; [assumption|]. now apply IH.
Qed.

(** what may follow *)
Definition delim (r : string) : Prop := r = "" \/ exists c r', r = String c r' /\ structural c = true.

Lemma leaf_prefix s1 : forall s2 r1 r2, has_no structural s1 = true -> has_no structural s2 = true -> delim r1 -> delim r2 ->
  s1 ++ r1 = s2 ++ r2 -> s1 = s2 /\ r1 = r2.
Proof.
  induction s1 as [|c s1 IH]; intros [|c2 s2] r1 r2 H1 H2 D1 D2 E; cbn in *.
  - auto.
  - apply andb_true_iff in H2 as (H2 & _). destruct D1 as [->|(d & r' & -> & Hd)]; [discriminate E|]. injection E as -> _. rewrite Hd in H2. discriminate H2.
  - apply andb_true_iff in H1 as (H1 & _). destruct D2 as [->|(d & r' & -> & Hd)]; [discriminate E|]. injection E as -> _. rewrite Hd in H1. discriminate H1.
  - apply andb_true_iff in H1 as (H1 & H1'). apply andb_true_iff in H2 as (H2 & H2'). injection E as -> E.
    destruct (IH s2 r1 r2 H1' H2' D1 D2 E) as (-> & ->). auto.
Qed.
Lemma show_first t : good t -> exists c r, show t = String c r /\ c <> "]"%char /\ match t with Leaf _ => structural c = false | Node _ => c = "["%char end.
Proof.
  destruct t as [s|[|x l]].
  - intros (Ne & H). destruct s as [|c s]; [now contradiction Ne|]. exists c, s. split; [reflexivity|]. cbn in H. apply andb_true_iff in H as (H & _).
    apply negb_true_iff in H. split; [intros ->; discriminate H|exact H].
  - intros _. exists "["%char, "]". split; [reflexivity|]. split; [discriminate|reflexivity].
  - intros _. rewrite show_node. eexists _, _. split; [reflexivity|]. split; [discriminate|reflexivity].
Qed.
Lemma delim_tail sep l r : (sep = ", " \/ sep = "," ++ nl) -> delim (tail_str sep l ++ "]" ++ r).
Proof. intros H. right. destruct l as [|x l]; [|destruct H as [-> | ->]]; eexists _, _; (split; [reflexivity|reflexivity]). Qed.
Lemma sep_cases t : sep_of t = ", " \/ sep_of t = "," ++ nl.
Proof. destruct t; auto. Qed.

Lemma show_prefix t1 : good t1 -> forall t2 r1 r2, good t2 -> delim r1 -> delim r2 -> show t1 ++ r1 = show t2 ++ r2 -> t1 = t2 /\ r1 = r2.
Proof.
  induction t1 as [s1|l1 IH] using tree_ind'; intros G1 t2 r1 r2 G2 D1 D2 E.
  - destruct t2 as [s2|l2].
    + destruct G1 as (_ & G1), G2 as (_ & G2). destruct (leaf_prefix _ _ G1 G2 D1 D2 E) as (-> & ->). auto.
    + destruct (show_first _ G1) as (c & r & E1 & _ & C1). destruct (show_first _ G2) as (c' & r' & E2 & _ & ->).
      rewrite E1, E2 in E. injection E as -> _. discriminate C1.
  - destruct t2 as [s2|l2].
    + destruct (show_first _ G1) as (c & r & E1 & _ & ->). destruct (show_first _ G2) as (c' & r' & E2 & _ & C2).
      rewrite E1, E2 in E. injection E as <- _. discriminate C2.
    + apply good_node in G1. apply good_node in G2.
      assert (T : forall sep, sep = ", " \/ sep = "," ++ nl -> forall m1 m2, Forall (fun t1 => good t1 -> forall t2 r1 r2, good t2 -> delim r1 -> delim r2 ->
          show t1 ++ r1 = show t2 ++ r2 -> t1 = t2 /\ r1 = r2) m1 -> Forall good m1 -> Forall good m2 ->
          tail_str sep m1 ++ "]" ++ r1 = tail_str sep m2 ++ "]" ++ r2 -> m1 = m2 /\ r1 = r2).
      { intros sep HS. induction m1 as [|x m1 IHm]; intros [|y m2] HF A1 A2 Q.
        - cbn in Q. injection Q as Q. auto.
        - destruct HS as [-> | ->]; cbn in Q; discriminate Q.
        - destruct HS as [-> | ->]; cbn in Q; discriminate Q.
        - cbn [tail_str fold_right] in Q. rewrite !sapp_assoc in Q.
          assert (Q' : show x ++ (tail_str sep m1 ++ "]" ++ r1) = show y ++ (tail_str sep m2 ++ "]" ++ r2)).
          { destruct HS as [-> | ->]; cbn in Q; injection Q as Q; exact Q. }
          inversion HF as [|? ? Hx HF']; inversion A1 as [|? ? Gx A1']; inversion A2 as [|? ? Gy A2']; subst.
          destruct (Hx Gx y _ _ Gy (delim_tail m1 r1 HS) (delim_tail m2 r2 HS) Q') as (-> & Q2).
          destruct (IHm m2 HF' A1' A2' Q2) as (-> & ->). auto. }
      destruct l1 as [|x l1], l2 as [|y l2].
      * cbn in E. injection E as E. auto.
      * rewrite show_node in E. inversion G2 as [|? ? Gy _]; subst. destruct (show_first _ Gy) as (c & r & Ey & Ny & _). rewrite Ey in E. cbn in E. injection E as <- _. now contradiction Ny.
      * rewrite show_node in E. inversion G1 as [|? ? Gx _]; subst. destruct (show_first _ Gx) as (c & r & Ex & Nx & _). rewrite Ex in E. cbn in E. injection E as -> _. now contradiction Nx.
      * rewrite !show_node in E. cbn [append] in E. injection E as E. rewrite !sapp_assoc in E.
        inversion IH as [|? ? Hx HF']; inversion G1 as [|? ? Gx A1']; inversion G2 as [|? ? Gy A2']; subst.
        destruct (Hx Gx y _ _ Gy (delim_tail l1 r1 (sep_cases x)) (delim_tail l2 r2 (sep_cases y)) E) as (-> & Q2).
        destruct (T _ (sep_cases y) l1 l2 HF' A1' A2' Q2) as (-> & ->). auto.
Qed.
Lemma show_inj t1 t2 : good t1 -> good t2 -> show t1 = show t2 -> t1 = t2.
Proof. intros G1 G2 E. apply (@show_prefix t1 G1 t2 "" "" G2); [now left|now left|]. now rewrite !sapp_nil. Qed.

Section Arrays.
Context (A : Type) (is_float : A -> bool) (f3 str : A -> string).
Notation f := (elem_str is_float f3 str).
Definition row_tree (r : list A) : tree := Node (map (fun x => Leaf (f x)) r).

Lemma one_show r : get_str_array_1d is_float f3 str r = show (row_tree r).
Proof.
  unfold get_str_array_1d, row_tree. rewrite show_concat by (intros x y I J; apply in_map_iff in I as (? & <- & _); apply in_map_iff in J as (? & <- & _); reflexivity).
  rewrite map_map. destruct r; reflexivity.
Qed.
Lemma two_show l : get_str_array_2d is_float f3 str l = show (Node (map row_tree l)).
Proof.
  unfold get_str_array_2d. rewrite show_concat by (intros x y I J; apply in_map_iff in I as (? & <- & _); apply in_map_iff in J as (? & <- & _); reflexivity).
  rewrite map_map. destruct l as [|r l]; [reflexivity|]. cbn [map]. rewrite one_show.
  do 3 f_equal. f_equal. apply map_ext. apply one_show.
Qed.
Lemma three_show l : get_str_array_3d is_float f3 str l = show (Node (map (fun m => Node (map row_tree m)) l)).
Proof.
  unfold get_str_array_3d. rewrite show_concat by (intros x y I J; apply in_map_iff in I as (? & <- & _); apply in_map_iff in J as (? & <- & _); reflexivity).
  rewrite map_map. destruct l as [|r l]; [reflexivity|]. cbn [map]. rewrite two_show.
  do 3 f_equal. f_equal. apply map_ext. apply two_show.
Qed.
Lemma array_show a s : get_str_array is_float f3 str a = Ok s -> s = show (nested f a).
Proof. destruct a as [l|l|l|n]; cbn [get_str_array]; intros H; try discriminate H; injection H as <-; [apply one_show|apply two_show|apply three_show]. Qed.
Lemma row_good r : Forall (fun x => plain (f x)) r -> good (row_tree r).
Proof. intros H. apply good_node. apply Forall_map. exact H. Qed.
Lemma nested_good a : Forall (fun x => plain (f x)) (entries a) -> good (nested f a).
Proof.
  destruct a as [l|l|l|n]; cbn [entries nested]; intros H.
  - now apply row_good.
  - apply good_node, Forall_map, Forall_forall. intros r I. apply row_good. apply Forall_forall. intros x J. rewrite Forall_forall in H. apply H.
    apply in_concat. eauto.
  - apply good_node, Forall_map, Forall_forall. intros m I. apply good_node, Forall_map, Forall_forall. intros r I2. apply row_good.
    apply Forall_forall. intros x J. rewrite Forall_forall in H. apply H. apply in_concat. exists (List.concat m). split; [now apply in_map|]. apply in_concat. eauto.
  - exact I.
Qed.
Lemma array_inj a b s : Forall (fun x => plain (f x)) (entries a) -> Forall (fun x => plain (f x)) (entries b) ->
  get_str_array is_float f3 str a = Ok s -> get_str_array is_float f3 str b = Ok s -> nested f a = nested f b.
Proof. intros Ga Gb Ea Eb. apply array_show in Ea, Eb. apply show_inj; [now apply nested_good|now apply nested_good|congruence]. Qed.

(** words *)
Lemma words_word s : forall acc r, has_no separator s = true -> words_from acc (s ++ r) = words_from (acc ++ s) r.
Proof.
  induction s as [|c s IH]; intros acc r H; cbn in *; [now rewrite sapp_nil|].
  apply andb_true_iff in H as (H1 & H2). apply negb_true_iff in H1. rewrite H1, IH by exact H2. now rewrite sapp_assoc.
Qed.
Lemma words_sep c r : separator c = true -> words_from "" (String c r) = words_from "" r.
Proof. intros H. cbn [words_from]. rewrite H. reflexivity. Qed.
Lemma words_end s c r : s <> "" -> separator c = true -> words_from s (String c r) = s :: words_from "" r.
Proof. intros Ne H. cbn [words_from]. rewrite H. destruct (String.eqb_spec s ""); [contradiction|reflexivity]. Qed.

Fixpoint leaves (t : tree) : list string := match t with Leaf s => [s] | Node l => flat_map leaves l end.
Fixpoint wordy (t : tree) : Prop :=
  match t with
  | Leaf s => one_word s
  | Node l => (fix all l := match l with [] => True | x :: r => wordy x /\ all r end) l
  end.
Lemma wordy_node l : wordy (Node l) <-> Forall wordy l.
Proof.
  induction l as [|x l IH]; [split; constructor|]. split.
  - intros (H & K). constructor; [exact H|]. now apply IH.
  - intros H. inversion H; subst. split; [assumption|]. now apply IH.
Qed.
(** followed by a separator *)
Lemma show_words t : wordy t -> forall c r, separator c = true -> words (show t ++ String c r) = (leaves t ++ words r)%list.
Proof.
  unfold words. induction t as [s|l IH] using tree_ind'; intros H c r Hc.
  - destruct H as (Ne & H). cbn [show leaves app]. rewrite words_word by exact H. cbn [append]. now rewrite words_end.
  - apply wordy_node in H. destruct l as [|x l]; [cbn [show append leaves flat_map app]; rewrite !words_sep by (exact Hc || reflexivity); reflexivity|].
    assert (T : forall sep, sep = ", " \/ sep = "," ++ nl -> forall m,
        Forall (fun t => wordy t -> forall c r, separator c = true -> words_from "" (show t ++ String c r) = (leaves t ++ words_from "" r)%list) m ->
        Forall wordy m -> exists d q, tail_str sep m ++ "]" ++ String c r = String d q /\ separator d = true /\ words_from "" q = (flat_map leaves m ++ words_from "" r)%list).
    { intros sep HS. induction m as [|y m IHm]; intros HF HW.
      - exists "]"%char, (String c r). split; [reflexivity|]. split; [reflexivity|]. now rewrite words_sep.
      - inversion HF as [|? ? Hy HF']; inversion HW as [|? ? Wy HW']; subst. destruct (IHm HF' HW') as (d & q & E & Hd & Eq).
        cbn [tail_str fold_right]. fold (tail_str sep m). exists ","%char.
        assert (EE : exists b, separator b = true /\ sep = String "," (String b "")) by (destruct HS as [-> | ->]; [exists " "%char|exists "010"%char]; split; reflexivity).
        destruct EE as (b & Hb & ->). eexists. rewrite !sapp_assoc. cbn [append]. split; [reflexivity|]. split; [reflexivity|].
        rewrite words_sep by exact Hb. cbn [append] in E. rewrite E, (Hy Wy _ _ Hd), Eq. cbn [flat_map]. now rewrite app_assoc. }
    inversion IH as [|? ? Hx HF]; inversion H as [|? ? Wx HW]; subst.
    destruct (T _ (sep_cases x) l HF HW) as (d & q & E & Hd & Eq).
    rewrite show_node. cbn [append]. rewrite words_sep by reflexivity. rewrite !sapp_assoc, E, (Hx Wx _ _ Hd), Eq. cbn [leaves flat_map]. now rewrite app_assoc.
Qed.
Lemma array_leaves a : rank_ok a -> leaves (nested f a) = map f (entries a).
Proof.
  assert (R : forall r, leaves (row_tree r) = map f r).
  { intros r. cbn. induction r as [|x r IH]; [reflexivity|]. cbn. f_equal. exact IH. }
  assert (M : forall m, leaves (Node (map row_tree m)) = map f (List.concat m)).
  { intros m. cbn [leaves]. induction m as [|r m IH]; [reflexivity|]. cbn [map flat_map List.concat]. now rewrite R, map_app, IH. }
  destruct a as [l|l|l|n]; cbn [nested entries]; intros Q; [apply R|apply M| |contradiction].
  change (leaves (Node (map (fun m => Node (map row_tree m)) l)) = map f (List.concat (map (@List.concat A) l))). cbn [leaves].
  induction l as [|m l IH]; [reflexivity|]. cbn [map flat_map List.concat]. now rewrite M, map_app, IH.
Qed.
Lemma nested_wordy a : Forall (fun x => one_word (f x)) (entries a) -> wordy (nested f a).
Proof.
  assert (R : forall r, Forall (fun x => one_word (f x)) r -> wordy (row_tree r)) by (intros r H; apply wordy_node, Forall_map; exact H).
  destruct a as [l|l|l|n]; cbn [entries nested]; intros H.
  - now apply R.
  - apply wordy_node, Forall_map, Forall_forall. intros r I. apply R. apply Forall_forall. intros x J. rewrite Forall_forall in H. apply H.
    apply in_concat. eauto.
  - apply wordy_node, Forall_map, Forall_forall. intros m I. apply wordy_node, Forall_map, Forall_forall. intros r I2. apply R.
    apply Forall_forall. intros x J. rewrite Forall_forall in H. apply H. apply in_concat. exists (List.concat m). split; [now apply in_map|]. apply in_concat. eauto.
  - exact I.
Qed.
Lemma words_drop s c : separator c = true -> forall acc, words_from acc (s ++ String c "") = words_from acc s.
Proof.
  intros H. induction s as [|d s IH]; intros acc; cbn.
  - rewrite H. now rewrite app_nil_r.
  - destruct (separator d); now rewrite IH.
Qed.
Lemma array_words a s : Forall (fun x => one_word (f x)) (entries a) -> get_str_array is_float f3 str a = Ok s -> words s = map f (entries a).
Proof.
  intros H E. assert (Q : rank_ok a) by (destruct a; [exact I..|discriminate E]). apply array_show in E as ->.
  pose proof (@show_words (nested f a) (nested_wordy _ H) "]" "" eq_refl) as K.
  unfold words in *. rewrite words_drop in K by reflexivity. rewrite K, array_leaves by exact Q. cbn. now rewrite app_nil_r.
Qed.

(** dictionaries *)
Lemma until_prefix p k1 : forall k2 c r1 r2, p c = true -> has_no p k1 = true -> has_no p k2 = true ->
  k1 ++ String c r1 = k2 ++ String c r2 -> k1 = k2 /\ r1 = r2.
Proof.
  induction k1 as [|a k1 IH]; intros [|b k2] c r1 r2 Hc H1 H2 E; cbn in *.
  - injection E as E. auto.
  - injection E as -> _. rewrite Hc in H2. discriminate H2.
  - injection E as -> _. rewrite Hc in H1. discriminate H1.
  - apply andb_true_iff in H1 as (_ & H1). apply andb_true_iff in H2 as (_ & H2). injection E as -> E.
    destruct (IH k2 c r1 r2 Hc H1 H2 E) as (-> & ->). auto.
Qed.
Notation dt := (dnested is_float f3 str).
Notation valid := (dplain is_float f3 str).
Definition item (p : string * tree) : string := "'" ++ fst p ++ "': " ++ show (snd p).
Lemma val_show v s : val_str is_float f3 str v = Ok s -> s = show (dt v).
Proof. destruct v; cbn; intros H; [now apply array_show|injection H as <-; reflexivity..]. Qed.
Lemma val_good v : valid v -> good (dt v).
Proof. destruct v; cbn; [apply nested_good|auto..]. Qed.
Lemma items_show h l : mapM (fun p => do s <- val_str is_float f3 str (snd p); Ok ("'" ++ fst p ++ "': " ++ s)) h = Ok l ->
  l = map item (map (fun p => (fst p, dt (snd p))) h).
Proof.
  revert l. induction h as [|(k, v) h IH]; intros l; cbn [mapM].
  - intros H. injection H as <-. reflexivity.
  - cbn [fst snd]. destruct (val_str is_float f3 str v) as [s|e] eqn:E; cbn [rbind]; [|discriminate].
    destruct (mapM _ h) as [l'|e] eqn:E'; cbn [rbind]; [|discriminate]. intros H. injection H as <-.
    rewrite (IH l' eq_refl). apply val_show in E as ->. reflexivity.
Qed.
Definition rest (l : list (string * tree)) : string := fold_right (fun p r => ", " ++ item p ++ r) "" l.
Lemma concat_items x l : concat ", " (map item (x :: l)) = item x ++ rest l.
Proof.
  revert x. induction l as [|y l IH]; intros x; [cbn [map concat rest fold_right]; now rewrite sapp_nil|].
  cbn [map]. change (concat ", " (item x :: item y :: map item l)) with (item x ++ ", " ++ concat ", " (map item (y :: l))).
  rewrite IH. reflexivity.
Qed.
Definition ok_item (p : string * tree) : Prop := has_no is_quote (fst p) = true /\ good (snd p).
Lemma delim_rest l : delim (rest l ++ "}").
Proof. right. destruct l as [|x l]; eexists _, _; (split; [reflexivity|reflexivity]). Qed.
Lemma item_prefix x y r1 r2 : ok_item x -> ok_item y -> delim r1 -> delim r2 -> item x ++ r1 = item y ++ r2 -> x = y /\ r1 = r2.
Proof.
  destruct x as (k1, t1), y as (k2, t2). intros (K1 & G1) (K2 & G2) D1 D2 E. unfold item in E. cbn [fst snd] in *.
  rewrite !sapp_assoc in E. cbn [append] in E. injection E as E.
  destruct (@until_prefix is_quote k1 k2 "'" _ _ eq_refl K1 K2 E) as (-> & E2). injection E2 as E2.
  destruct (show_prefix _ G1 _ G2 D1 D2 E2) as (-> & ->). auto.
Qed.
Lemma rest_cons x l : rest (x :: l) ++ "}" = String "," (String " " (item x ++ (rest l ++ "}"))).
Proof. change (rest (x :: l)) with (String "," (String " " (item x ++ rest l))). cbn [append]. now rewrite <- sapp_assoc. Qed.
Lemma rest_inj l1 : Forall ok_item l1 -> forall l2, Forall ok_item l2 -> rest l1 ++ "}" = rest l2 ++ "}" -> l1 = l2.
Proof.
  induction 1 as [|x l1 Hx _ IH]; intros l2 [|y l2' Hy H2] E; [reflexivity|discriminate E..|].
  rewrite !rest_cons in E. assert (E' : item x ++ (rest l1 ++ "}") = item y ++ (rest l2' ++ "}")) by congruence. clear E. rename E' into E.
  destruct (item_prefix Hx Hy (delim_rest l1) (delim_rest l2') E) as (-> & Q). now rewrite (IH l2' H2 Q).
Qed.
Lemma dict_inj h1 h2 s :
  Forall (fun p => has_no is_quote (fst p) = true /\ valid (snd p)) h1 ->
  Forall (fun p => has_no is_quote (fst p) = true /\ valid (snd p)) h2 ->
  get_str_hyps is_float f3 str h1 = Ok s -> get_str_hyps is_float f3 str h2 = Ok s ->
  map (fun p => (fst p, dt (snd p))) h1 = map (fun p => (fst p, dt (snd p))) h2.
Proof.
  intros V1 V2. unfold get_str_hyps.
  destruct (mapM _ h1) as [l1|] eqn:E1; cbn [rbind]; [|discriminate]. destruct (mapM _ h2) as [l2|] eqn:E2; cbn [rbind]; [|discriminate].
  intros A1 A2. injection A1 as A1. injection A2 as A2. rewrite <- A2 in A1. clear A2 s. assert (Q0 : forall a b, String "{" a = String "{" b -> a = b) by congruence. apply Q0 in A1. clear Q0.
  apply items_show in E1 as ->. apply items_show in E2 as ->.
  assert (O : forall h, Forall (fun p => has_no is_quote (fst p) = true /\ valid (snd p)) h -> Forall ok_item (map (fun p => (fst p, dt (snd p))) h)).
  { intros h H. apply Forall_map. eapply Forall_impl; [|exact H]. intros p (K & V). split; [exact K|]. now apply val_good. }
  apply O in V1, V2. remember (map _ h1) as m1. remember (map _ h2) as m2. clear Heqm1 Heqm2 O.
  destruct m1 as [|x m1], m2 as [|y m2]; [reflexivity| | |].
  - rewrite concat_items in A1. discriminate A1.
  - rewrite concat_items in A1. discriminate A1.
  - rewrite !concat_items, !sapp_assoc in A1. inversion V1 as [|? ? X1 Y1]; inversion V2 as [|? ? X2 Y2]; subst.
    destruct (item_prefix X1 X2 (delim_rest m1) (delim_rest m2) A1) as (-> & Q). now rewrite (rest_inj Y1 Y2 Q).
Qed.
Lemma has_no_app p a b : has_no p (a ++ b) = (has_no p a && has_no p b)%bool.
Proof. induction a as [|c a IH]; [reflexivity|]. cbn. rewrite IH. now rewrite andb_assoc. Qed.
Lemma item_words k t c r : has_no separator k = true -> wordy t -> separator c = true ->
  words (item (k, t) ++ String c r) = (key_word k :: leaves t ++ words r)%list.
Proof.
  intros K T C. unfold words. unfold item. cbn [fst snd].
  replace (("'" ++ k ++ "': " ++ show t) ++ String c r) with (key_word k ++ String " " (show t ++ String c r))
    by (unfold key_word; rewrite !sapp_assoc; reflexivity).
  rewrite words_word. 2:{ unfold key_word. now rewrite !has_no_app, K. }
  cbn [append]. rewrite words_end; [|discriminate|reflexivity]. f_equal. exact (@show_words t T c r C).
Qed.
Lemma rest_words l : Forall (fun p => has_no separator (fst p) = true /\ wordy (snd p)) l ->
  exists c q, rest l ++ "}" = String c q /\ separator c = true /\ words q = flat_map (fun p => key_word (fst p) :: leaves (snd p)) l.
Proof.
  induction 1 as [|[k t] l (K & T) _ (c & q & E & C & Q)].
  - exists "}"%char, "". repeat split; reflexivity.
  - rewrite rest_cons. eexists _, _. split; [reflexivity|]. split; [reflexivity|]. unfold words. rewrite words_sep by reflexivity. rewrite E.
    cbn [fst snd] in *. change (words (item (k, t) ++ String c q) = flat_map (fun p => key_word (fst p) :: leaves (snd p)) ((k, t) :: l)).
    rewrite item_words by assumption. cbn [flat_map fst snd]. now rewrite Q.
Qed.
Lemma val_leaves v s : val_str is_float f3 str v = Ok s -> leaves (dt v) = dwords is_float f3 str v.
Proof. destruct v as [a| |]; cbn; intros H; [|reflexivity..]. apply array_leaves. destruct a; [exact I..|discriminate H]. Qed.
Lemma val_wordy v : Forall one_word (dwords is_float f3 str v) -> wordy (dt v).
Proof.
  destruct v as [a| |]; cbn; intros H; [|inversion H; assumption..]. apply nested_wordy. rewrite Forall_map in H. exact H.
Qed.
Lemma dict_words h s :
  Forall (fun p => has_no separator (fst p) = true /\ Forall one_word (dwords is_float f3 str (snd p))) h ->
  get_str_hyps is_float f3 str h = Ok s ->
  words s = flat_map (fun p => key_word (fst p) :: dwords is_float f3 str (snd p)) h.
Proof.
  intros V H. unfold get_str_hyps in H. destruct (mapM _ h) as [l|] eqn:E; cbn [rbind] in H; [|discriminate H]. injection H as <-.
  pose proof (items_show _ E) as El.
  assert (V' : Forall (fun p => has_no separator (fst p) = true /\ wordy (snd p)) (map (fun p => (fst p, dt (snd p))) h)).
  { apply Forall_map. eapply Forall_impl; [|exact V]. intros p (K & T). split; [exact K|]. now apply val_wordy. }
  assert (F : flat_map (fun p => key_word (fst p) :: leaves (snd p)) (map (fun p => (fst p, dt (snd p))) h) =
              flat_map (fun p => key_word (fst p) :: dwords is_float f3 str (snd p)) h).
  { clear V V' El. revert l E. induction h as [|(k, v) h IH]; intros l E; [reflexivity|]. cbn [mapM] in E. cbn [map flat_map fst snd] in *.
    destruct (val_str is_float f3 str v) as [x|] eqn:Ev; cbn [rbind] in E; [|discriminate E]. destruct (mapM _ h) as [l'|] eqn:E'; cbn [rbind] in E; [|discriminate E].
    rewrite (val_leaves _ Ev). f_equal. f_equal. eapply IH. reflexivity. }
  rewrite <- F, El. clear E El F V. destruct (map (fun p => (fst p, dt (snd p))) h) as [|[k t] m]; [reflexivity|].
  rewrite concat_items. inversion V' as [|? ? (K & T) V2]; subst. destruct (rest_words V2) as (c & q & E & C & Q).
  unfold words. cbn [append]. rewrite words_sep by reflexivity. rewrite sapp_assoc, E. cbn [fst snd] in K, T.
  change (words (item (k, t) ++ String c q) = flat_map (fun p => key_word (fst p) :: leaves (snd p)) ((k, t) :: m)).
  rewrite item_words by assumption. cbn [flat_map fst snd]. now rewrite Q.
Qed.
Lemma dict_ok h : (forall k v, In (k, v) h -> match v with DArr (TN _ _) => False | _ => True end) -> exists s, get_str_hyps is_float f3 str h = Ok s.
Proof.
  unfold get_str_hyps. intros H.
  assert (E : exists l, mapM (fun p => do s <- val_str is_float f3 str (snd p); Ok ("'" ++ fst p ++ "': " ++ s)) h = Ok l).
  { induction h as [|(k, v) h IH]; [eexists; reflexivity|]. destruct IH as (l & El); [intros k' v' I; apply (H k' v'); now right|].
    specialize (H k v (or_introl eq_refl)). cbn [mapM fst snd]. rewrite El. destruct v as [[| | |]| |]; cbn; try contradiction; eexists; reflexivity. }
  destruct E as (l & ->). eexists. reflexivity.
Qed.
End Arrays.

(** ** loggers *)
Lemma requests names : forall h, request_all names h = (h ++ map canonical names)%list.
Proof.
  induction names as [|n names IH]; intros h; cbn [request_all fold_left map]; [now rewrite app_nil_r|].
  unfold request_all in IH. rewrite IH. unfold get_logger. now rewrite <- app_assoc.
Qed.
Lemma prefix_app a s : prefix a s = true <-> exists r, s = a ++ r.
Proof.
  revert s. induction a as [|c a IH]; intros s; [split; [intros _; now exists s|destruct s; reflexivity]|].
  destruct s as [|d s]; [split; [discriminate|intros (r & H); discriminate H]|].
  simpl. destruct (ascii_dec c d) as [->|Ne].
  - rewrite IH. split; intros (r & H); exists r; [now rewrite H|now injection H].
  - split; [discriminate|]. intros (r & H). injection H as -> _. now contradiction Ne.
Qed.
Lemma above_iff a n : at_or_above a n = true <-> a = n \/ ancestor a n.
Proof.
  unfold at_or_above. rewrite !orb_true_iff, !String.eqb_eq, prefix_app. split.
  - intros [[-> | ->]|(r & ->)]; [right; constructor|now left|right; rewrite sapp_assoc; constructor].
  - intros [-> | [m|m b]]; [now left; right|now left; left|right; exists b; now rewrite sapp_assoc].
Qed.
Lemma log_spec name names : log name (request_all names []) = filter (fun a => at_or_above a (canonical name)) (map canonical names).
Proof. rewrite requests. reflexivity. Qed.
Lemma canonical_canonical n : canonical (canonical n) = canonical n.
Proof. unfold canonical. destruct ((n =? "") || (n =? "root"))%bool eqn:E; [reflexivity|now rewrite E]. Qed.
Lemma above_refl n : at_or_above n n = true.
Proof. apply above_iff. now left. Qed.
Lemma sublist_filter (A : Type) (p : A -> bool) l : sublist (filter p l) l.
Proof. induction l as [|x l IH]; [constructor|]. cbn. destruct (p x); now constructor. Qed.
Lemma filter_map (A B : Type) (g : A -> B) (p : B -> bool) l : filter p (map g l) = map g (filter (fun x => p (g x)) l).
Proof. induction l as [|x l IH]; [reflexivity|]. cbn. destruct (p (g x)); cbn; now rewrite IH. Qed.
Lemma count_filter (p : string -> bool) n l : p n = true -> count_occ string_dec (filter p l) n = count_occ string_dec l n.
Proof.
  intros H. induction l as [|x l IH]; [reflexivity|]. cbn. destruct (p x) eqn:E; cbn; destruct (string_dec x n) as [->|Ne]; rewrite ?IH; congruence || reflexivity.
Qed.
Lemma log_requests name names :
  exists above, log name (request_all names []) = map canonical above /\
    sublist above names /\
    (forall n, In n above <-> In n names /\ (canonical n = canonical name \/ ancestor (canonical n) (canonical name))) /\
    (forall n, canonical n = canonical name \/ ancestor (canonical n) (canonical name) ->
       count_occ string_dec above n = count_occ string_dec names n).
Proof.
  exists (filter (fun n => at_or_above (canonical n) (canonical name)) names). rewrite log_spec, filter_map.
  split; [reflexivity|]. split; [apply sublist_filter|]. split.
  - intros n. rewrite filter_In, above_iff. reflexivity.
  - intros n H. apply count_filter. now apply above_iff.
Qed.
Lemma filter_none (A : Type) (p : A -> bool) l : (forall x, In x l -> p x = false) -> filter p l = [].
Proof. induction l as [|x l IH]; intros H; [reflexivity|]. cbn. rewrite (H x) by now left. apply IH. intros y I. apply H. now right. Qed.
Lemma log_once name before after :
  (forall n, In n (before ++ after)%list -> canonical n <> canonical name /\ ~ ancestor (canonical n) (canonical name)) ->
  log name (request_all (before ++ name :: after)%list []) = [canonical name].
Proof.
  intros H. rewrite log_spec, map_app, filter_app. cbn [map filter]. rewrite above_refl.
  assert (K : forall l, (forall n, In n l -> In n (before ++ after)%list) -> filter (fun a => at_or_above a (canonical name)) (map canonical l) = []).
  { intros l S0. apply filter_none. intros x I. apply in_map_iff in I as (n & <- & I). apply S0, H in I as (I1 & I2).
    apply not_true_is_false. intros Q. apply above_iff in Q. tauto. }
  rewrite !K; [reflexivity|intros n I; apply in_or_app; now right|intros n I; apply in_or_app; now left].
Qed.
Lemma log_objects surrogate e others k :
  (k <= List.length (log (bo_logger_name surrogate e) (request_all (others ++ repeat (bo_logger_name surrogate e) k)%list [])))%nat.
Proof.
  rewrite log_spec, map_app, filter_app, app_length.
  assert (E : List.length (filter (fun a => at_or_above a (canonical (bo_logger_name surrogate e))) (map canonical (repeat (bo_logger_name surrogate e) k))) = k).
  { induction k as [|k IH]; [reflexivity|]. cbn [repeat map filter]. rewrite above_refl. cbn [List.length]. now rewrite IH. }
  rewrite E. lia.
Qed.
Lemma array_ranks (A : Type) (is_float : A -> bool) (f3 str : A -> string) (a : tensor A) :
  (rank_ok a -> exists s, get_str_array is_float f3 str a = Ok s) /\
  (~ rank_ok a -> get_str_array is_float f3 str a = Raise NotImplementedError).
Proof. destruct a; cbn; split; try tauto; intros _; eexists; reflexivity. Qed.

(** the loggers of the package do not mix *)
Definition okname (n : string) : Prop := n <> "" /\ n <> "root" /\ has_no is_dot n = true.
Lemma ok_canonical n : okname n -> canonical n = n.
Proof. intros (A & B & _). unfold canonical. apply String.eqb_neq in A, B. now rewrite A, B. Qed.
Lemma ok_above a n : okname a -> okname n -> at_or_above a n = (a =? n).
Proof.
  intros (A & _ & _) (_ & _ & D). apply Bool.eq_iff_eq_true. rewrite above_iff, String.eqb_eq. split; [|now left].
  intros [?|Q]; [assumption|]. destruct Q as [m|m b]; [now contradiction A|]. rewrite has_no_app in D. cbn in D. rewrite !andb_false_r in D. discriminate D.
Qed.
Lemma ok_log name names : okname name -> Forall okname names -> List.length (log name (request_all names [])) = count_occ string_dec names name.
Proof.
  intros H HN. rewrite log_spec, (ok_canonical H). induction HN as [|n names Hn HN IH]; [reflexivity|]. cbn [map filter count_occ]. rewrite (ok_canonical Hn), (ok_above Hn H).
  destruct (String.eqb_spec n name) as [->|Ne]; destruct (string_dec _ _); try congruence; cbn [List.length]; now rewrite IH.
Qed.
Definition object_name (p : string * option string) : string := bo_logger_name (fst p) (snd p).
Lemma object_ok s e : In s ["gp"; "tp"; "rf"] -> undotted e -> okname (bo_logger_name s e).
Proof.
  intros HS HE. destruct HS as [<-|[<-|[<-|[]]]]; destruct e as [e|]; (split; [discriminate|split; [discriminate|]]); try reflexivity; exact HE.
Qed.
Lemma object_inj s e s' e' : In s ["gp"; "tp"; "rf"] -> In s' ["gp"; "tp"; "rf"] -> bo_logger_name s e = bo_logger_name s' e' -> (s, e) = (s', e').
Proof.
  intros HS HS' Q. destruct HS as [<-|[<-|[<-|[]]]], HS' as [<-|[<-|[<-|[]]]]; destruct e as [e|], e' as [e'|]; try discriminate Q; try reflexivity; cbn in Q; injection Q as Q; now rewrite Q.
Qed.
Lemma modules_ok : Forall okname module_loggers.
Proof. repeat constructor; discriminate. Qed.
Lemma objects_ok (l : list (string * option string)) : Forall (fun p => In (fst p) ["gp"; "tp"; "rf"] /\ undotted (snd p)) l -> Forall okname (map object_name l).
Proof. intros H. apply Forall_map. eapply Forall_impl; [|exact H]. intros p (A & B). now apply object_ok. Qed.
Lemma module_not_object m p : In m module_loggers -> object_name p <> m.
Proof. intros H Q. destruct p as (s, [e|]); repeat (destruct H as [<-|H]; [discriminate Q|]); contradiction. Qed.
Lemma count_objects (l : list (string * option string)) p : In (fst p) ["gp"; "tp"; "rf"] -> Forall (fun p => In (fst p) ["gp"; "tp"; "rf"] /\ undotted (snd p)) l ->
  count_occ string_dec (map object_name l) (object_name p) = count_occ object_dec l p.
Proof.
  intros HP H. induction H as [|q l Hq H IH]; [reflexivity|]. cbn [map count_occ].
  destruct (string_dec (object_name q) (object_name p)) as [E|E]; destruct (object_dec q p) as [E'|E']; try (now rewrite IH); exfalso.
  - apply E'. destruct p, q. now apply object_inj.
  - apply E. now rewrite E'.
Qed.
Lemma count_none (A : Type) (d : forall x y : A, {x = y} + {x <> y}) l x : ~ In x l -> count_occ d l x = 0%nat.
Proof. apply count_occ_not_In. Qed.
Lemma log_separate (l : list (string * option string)) : Forall (fun p => In (fst p) ["gp"; "tp"; "rf"] /\ undotted (snd p)) l ->
  let h := request_all (module_loggers ++ map (fun p => bo_logger_name (fst p) (snd p)) l)%list [] in
  (forall m, In m module_loggers -> List.length (log m h) = 1%nat) /\
  (forall s e, In s ["gp"; "tp"; "rf"] -> undotted e -> List.length (log (bo_logger_name s e) h) = count_occ object_dec l (s, e)).
Proof.
  intros H h. subst h. change (map (fun p => bo_logger_name (fst p) (snd p)) l) with (map object_name l).
  assert (F : Forall okname (module_loggers ++ map object_name l)%list) by (apply Forall_app; split; [exact modules_ok|now apply objects_ok]).
  split.
  - intros m I. rewrite ok_log; [|exact (proj1 (Forall_forall _ _) modules_ok m I)|exact F]. rewrite count_occ_app, (@count_none _ string_dec (map object_name l)).
    + repeat (destruct I as [<-|I]; [reflexivity|]). contradiction.
    + intros Q. apply in_map_iff in Q as (p & Q & _). exact (module_not_object p I Q).
  - intros s e HS HE. rewrite ok_log; [|now apply object_ok|exact F]. rewrite count_occ_app, count_none.
    + exact (@count_objects l (s, e) HS H).
    + intros Q. exact (module_not_object (s, e) Q eq_refl).
Qed.
Lemma log_dots s e e' : log (bo_logger_name s (Some (e ++ "." ++ e'))) (request_all [bo_logger_name s (Some e); bo_logger_name s (Some (e ++ "." ++ e'))] []) =
  ["bo_w_" ++ s ++ "_" ++ e; "bo_w_" ++ s ++ "_" ++ e ++ "." ++ e'].
Proof.
  rewrite log_spec. cbn [map]. change (canonical (bo_logger_name s (Some e))) with ("bo_w_" ++ s ++ "_" ++ e). change (canonical (bo_logger_name s (Some (e ++ "." ++ e')))) with ("bo_w_" ++ s ++ "_" ++ e ++ "." ++ e').
  cbn [filter]. rewrite above_refl, (proj2 (above_iff _ _)); [reflexivity|]. right. 
  replace ("bo_w_" ++ s ++ "_" ++ e ++ "." ++ e') with (("bo_w_" ++ s ++ "_" ++ e) ++ "." ++ e'). constructor. now rewrite !sapp_assoc.
Qed.
