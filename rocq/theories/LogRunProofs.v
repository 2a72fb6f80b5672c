(** Proofs: log messages do not influence a run. *)
From Verif Require Import Base Num UtilsModel HypsModel CovModel GPModel LikModel HypOptModel AcqModel TreesModel SamplingModel
  Monad WrapperModel BOModel BOAcqModel BOFullModel BOProgram LoggerModel LogRunModel LogRunSpec.
From Coq Require Import List ZArith Bool Ascii String Lia.
Import ListNotations.
Local Open Scope string_scope.

(** ** Two programs that do the same *)
Definition strict_eq {A} (lax : bool) (r1 r2 : res A) : Prop :=
  r1 = r2 \/ lax = true /\ r1 = Raise AssertionError /\ (r2 = Raise ValueError \/ r2 = Raise OutsideModel).
Section Sim.
Context {S E1 E2 K : Type} (F1 : E1 -> list K) (F2 : E2 -> list K) (lax : bool).
Definition sim {A} (m1 : M S E1 A) (m2 : M S E2 A) : Prop := forall s,
  match m1 s, m2 s with (s1, t1, r1), (s2, t2, r2) => s1 = s2 /\ flat_map F1 t1 = flat_map F2 t2 /\ strict_eq lax r1 r2 end.

Lemma sim_refl_pure {A} (f : S -> S * res A) : sim (ext f) (ext f).
Proof. intros s. unfold ext. destruct (f s). repeat split. now left. Qed.
Lemma sim_ext {A} (f g : S -> S * res A) : (forall s, f s = g s) -> sim (ext f) (ext g).
Proof. intros H s. unfold ext. rewrite H. destruct (g s). repeat split. now left. Qed.
Lemma sim_ext_ev {A} (f g : S -> S * res A) ev : (forall s, f s = g s) -> (forall r, F2 (ev r) = []) -> sim (ext f) (ext_ev ev g).
Proof. intros H V s. unfold ext, ext_ev. rewrite H. destruct (g s). cbn. rewrite V. repeat split. now left. Qed.
Lemma sim_ret {A} (a : A) : sim (ret a) (ret a).
Proof. intros s. repeat split. now left. Qed.
Lemma sim_lift {A} (r : res A) : sim (lift r) (lift r).
Proof. intros s. repeat split. now left. Qed.
Lemma sim_raise {A} e : sim (@raise S E1 A e) (raise e).
Proof. intros s. repeat split. now left. Qed.
Lemma sim_bind {A B} (m1 : M S E1 A) (m2 : M S E2 A) (k1 : A -> M S E1 B) (k2 : A -> M S E2 B) :
  sim m1 m2 -> (forall a, sim (k1 a) (k2 a)) -> sim (bind m1 k1) (bind m2 k2).
Proof.
  intros H1 H2 s. unfold bind. specialize (H1 s). destruct (m1 s) as [[s1 t1] r1], (m2 s) as [[s2 t2] r2].
  destruct H1 as (<- & T & [<-|(L & -> & R)]).
  - destruct r1 as [a|e].
    + specialize (H2 a s1). destruct (k1 a s1) as [[? ?] ?], (k2 a s1) as [[? ?] ?]. destruct H2 as (<- & T2 & R).
      rewrite !flat_map_app, T, T2. repeat split. exact R.
    + repeat split; [exact T|now left].
  - destruct R as [-> | ->]; repeat split; try exact T; right; auto.
Qed.
Lemma sim_mmapM {A B} (f1 : A -> M S E1 B) (f2 : A -> M S E2 B) l : (forall x, sim (f1 x) (f2 x)) -> sim (mmapM f1 l) (mmapM f2 l).
Proof.
  intros H. induction l as [|x l IH]; cbn [mmapM]; [apply sim_ret|].
  apply sim_bind; [apply H|intros y]. apply sim_bind; [exact IH|intros ys]. apply sim_ret.
Qed.
(** a statement that only writes what is not looked at *)
Definition idle1 {A} (m : M S E1 A) (a : A) : Prop := forall s, exists t, m s = (s, t, Ok a) /\ flat_map F1 t = [].
Definition idle2 {A} (m : M S E2 A) (a : A) : Prop := forall s, exists t, m s = (s, t, Ok a) /\ flat_map F2 t = [].
Lemma sim_left {A B} (m : M S E1 A) a (k : A -> M S E1 B) m2 : idle1 m a -> sim (k a) m2 -> sim (bind m k) m2.
Proof.
  intros H1 H2 s. unfold bind. destruct (H1 s) as (t & -> & T). specialize (H2 s).
  destruct (k a s) as [[? ?] ?], (m2 s) as [[? ?] ?]. rewrite flat_map_app, T. exact H2.
Qed.
Lemma sim_right {A B} (m : M S E2 A) a (k : A -> M S E2 B) m1 : idle2 m a -> sim m1 (k a) -> sim m1 (bind m k).
Proof.
  intros H1 H2 s. unfold bind. destruct (H1 s) as (t & -> & T). specialize (H2 s).
  destruct (m1 s) as [[? ?] ?], (k a s) as [[? ?] ?]. rewrite flat_map_app, T. exact H2.
Qed.
End Sim.
Lemma sim_weaken {S E1 E2 K A} (F1 : E1 -> list K) (F2 : E2 -> list K) lax (m1 : M S E1 A) (m2 : M S E2 A) :
  sim F1 F2 false m1 m2 -> sim F1 F2 lax m1 m2.
Proof.
  intros H s. specialize (H s). destruct (m1 s) as [[? ?] ?], (m2 s) as [[? ?] ?]. destruct H as (? & ? & [R|[D _]]); [|discriminate].
  repeat split; try assumption. now left.
Qed.

(** ** Statements that compute a given outcome and write only messages of one kind *)
Section Pure.
Context {S : Type} (P : msg -> Prop).
Definition plain {A} (m : M S msg A) (r : res A) : Prop := forall s, exists t, m s = (s, t, r) /\ Forall P t.
Lemma plain_ret {A} (a : A) : plain (ret a) (Ok a).
Proof. intros s. exists []. now split. Qed.
Lemma plain_lift {A} (r : res A) : plain (lift r) r.
Proof. intros s. exists []. now split. Qed.
Lemma plain_raise {A} e : plain (@raise S msg A e) (Raise e).
Proof. intros s. exists []. now split. Qed.
Lemma plain_say lg lv t : P (mkmsg lg lv t) -> plain (say lg lv t) (Ok tt).
Proof. intros H s. eexists. split; [reflexivity|]. now constructor. Qed.
Lemma plain_bind {A B} (m : M S msg A) r (k : A -> M S msg B) kr :
  plain m r -> (forall a, r = Ok a -> plain (k a) (kr a)) -> plain (bind m k) (rbind r kr).
Proof.
  intros H1 H2 s. unfold bind. destruct (H1 s) as (t & -> & T). destruct r as [a|e]; cbn.
  - destruct (H2 a eq_refl s) as (t2 & -> & T2). exists (t ++ t2)%list. split; [reflexivity|]. apply Forall_app. now split.
  - exists t. now split.
Qed.
Lemma plain_skip {A B} (m : M S msg A) a (k : A -> M S msg B) r : plain m (Ok a) -> plain (k a) r -> plain (bind m k) r.
Proof. intros H1 H2. change r with (rbind (Ok a) (fun _ => r)). apply plain_bind; [exact H1|]. intros b [= <-]. exact H2. Qed.
Lemma plain_when b m : (b = true -> plain m (Ok tt)) -> plain (when b m) (Ok tt).
Proof. intros H. destruct b; [now apply H|apply plain_ret]. Qed.
Lemma plain_eq {A} (m : M S msg A) r r' : plain m r -> r = r' -> plain m r'.
Proof. now intros H <-. Qed.
End Pure.
Lemma plain_say_res {S} (P : msg -> Prop) lg lv pre r t : r = Ok t -> P (mkmsg lg lv (pre ++ t)) -> plain (S := S) P (say_res lg lv pre r) (Ok tt).
Proof. intros -> H. unfold say_res. eapply plain_skip; [apply plain_lift|]. now apply plain_say. Qed.
Lemma hyps_text_ok N num h : exists t, hyps_text N num h = Ok t.
Proof.
  unfold hyps_text, get_str_hyps.
  assert (H : forall l, exists q, mapM (fun p : string * dval N => do s <- val_str (fun _ => true) num num (snd p); Ok ("'" ++ fst p ++ "': " ++ s))
    (map (fun p : string * pyval N => (fst p, match snd p with PFloat _ x => DFloat x | PArr _ l => DArr (T1 l) | POther _ _ => DArr (T1 []) end)) l) = Ok q).
  { induction l as [|[k v] l [q IH]]; [now eexists|]. cbn [map mapM fst snd]. rewrite IH. destruct v; cbn; eexists; reflexivity. }
  destruct (H h) as [q ->]. cbn. now eexists.
Qed.
Lemma plain_say_world {W St} (P : msg -> Prop) lg lv pre f post :
  (forall t, P (mkmsg lg lv t)) -> plain (S := St * W) P (say_world W St lg lv pre f post) (Ok tt).
Proof. intros H s. eexists. split; [reflexivity|]. constructor; [apply H|constructor]. Qed.

(** messages that are written only if the flag is set *)
Definition flagged (debug : bool) (m : msg) : Prop := m_level m = DEBUG /\ debug = true.

Ltac plain_step :=
  match goal with
  | |- plain _ (bind (lift _) _) (rbind _ _) => apply plain_bind; [apply plain_lift|let a := fresh "a" in intros a _]
  | |- plain _ (bind (when _ _) _) _ => eapply plain_skip; [apply plain_when; let D := fresh "D" in intros D|]
  | |- plain _ (bind (say _ _ _) _) _ => eapply plain_skip; [apply plain_say; try (split; [reflexivity|assumption])|]
  | |- plain _ (say _ _ _) _ => apply plain_say; try (split; [reflexivity|assumption])
  | |- plain _ (bind (say_world _ _ _ _ _ _ _) _) _ => eapply plain_skip; [apply plain_say_world; try (intros ?; split; [reflexivity|assumption])|]
  | |- plain _ (say_world _ _ _ _ _ _ _) _ => apply plain_say_world; try (intros ?; split; [reflexivity|assumption])
  | |- plain _ (bind (say_res _ _ _ (hyps_text ?N ?num ?h)) _) _ =>
      eapply plain_skip; [let t := fresh "t" in let T := fresh "T" in destruct (hyps_text_ok N num h) as [t T];
        eapply plain_say_res; [exact T|split; [reflexivity|assumption]]|]
  | |- plain _ (ret _) (Ok _) => apply plain_ret
  | |- plain _ (let _ := _ in _) _ => cbv zeta
  | |- plain _ _ (let _ := _ in _) => cbv zeta
  end.

(** ** Looking only at records above DEBUG, and at no records at all *)
Definition Fv (m : msg) : list msg := if is_debug m then [] else [hide_flag m].
Lemma visible_flat l : flat_map Fv l = visible l.
Proof. unfold visible. induction l as [|m l IH]; [reflexivity|]. cbn. unfold Fv at 1. destruct (is_debug m); cbn; now rewrite IH. Qed.
Definition F0 {E : Type} (_ : E) : list unit := [].
Lemma F0_nil {E} (l : list E) : flat_map F0 l = [].
Proof. now induction l. Qed.

Lemma sim_self {S A} lax (m : M S msg A) : sim Fv Fv lax m m.
Proof. intros s. destruct (m s) as [[? ?] ?]. repeat split. now left. Qed.
Lemma flagged_invisible d t : Forall (flagged d) t -> flat_map Fv t = [].
Proof. induction 1 as [|m l [H _] _ IH]; [reflexivity|]. cbn. unfold Fv at 1, is_debug. now rewrite H. Qed.
Lemma left_flagged {S A B} d lax (m : M S msg A) a (k : A -> M S msg B) m2 :
  plain (flagged d) m (Ok a) -> sim Fv Fv lax (k a) m2 -> sim Fv Fv lax (bind m k) m2.
Proof. intros H. apply sim_left. intros s. destruct (H s) as (t & E & T). exists t. split; [exact E|now apply flagged_invisible in T]. Qed.
Lemma right_flagged {S A B} d lax (m : M S msg A) a (k : A -> M S msg B) m1 :
  plain (flagged d) m (Ok a) -> sim Fv Fv lax m1 (k a) -> sim Fv Fv lax m1 (bind m k).
Proof. intros H. apply sim_right. intros s. destruct (H s) as (t & E & T). exists t. split; [exact E|now apply flagged_invisible in T]. Qed.
Lemma left_silent {S E A B} (P : msg -> Prop) lax (m : M S msg A) a (k : A -> M S msg B) (m2 : M S E B) :
  plain P m (Ok a) -> sim F0 F0 lax (k a) m2 -> sim F0 F0 lax (bind m k) m2.
Proof. intros H. apply sim_left. intros s. destruct (H s) as (t & E0 & T). exists t. split; [exact E0|apply F0_nil]. Qed.

(** ** What is written without the flag *)
Definition says {S A} (m : M S msg A) (l : list msg) : Prop :=
  forall s, match m s with (_, t, r) => complete_or_beginning t l r end.
Lemma says_bind {S A B} (m : M S msg A) (k : A -> M S msg B) l1 l2 : says m l1 -> (forall a, says (k a) l2) -> says (bind m k) (l1 ++ l2)%list.
Proof.
  intros H1 H2 s. unfold bind. specialize (H1 s). destruct (m s) as [[s1 t1] [a|e]]; cbn in H1.
  - subst t1. specialize (H2 a s1). destruct (k a s1) as [[s2 t2] [b|e]]; cbn in *; [now rewrite H2|].
    destruct H2 as [r ->]. exists r. now rewrite app_assoc.
  - destruct H1 as [r ->]. exists (r ++ l2)%list. now rewrite app_assoc.
Qed.
Lemma says_first {S A B} (m : M S msg A) (k : A -> M S msg B) l : says m [] -> (forall a, says (k a) l) -> says (bind m k) l.
Proof. apply (says_bind m k []). Qed.
Lemma says_last {S A B} (m : M S msg A) (k : A -> M S msg B) l : says m l -> (forall a, says (k a) []) -> says (bind m k) l.
Proof. intros H1 H2. rewrite <- (app_nil_r l). now apply says_bind. Qed.
Lemma says_ext {S A} (f : S -> S * res A) : says (ext f) [].
Proof. intros s. unfold ext. destruct (f s) as [? [?|?]]; cbn; [reflexivity|now exists []]. Qed.
Lemma says_lift {S A} (r : res A) : says (S := S) (lift r) [].
Proof. intros s. destruct r; cbn; [reflexivity|now exists []]. Qed.
Lemma says_ret {S A} (a : A) : says (S := S) (ret a) [].
Proof. intros s. reflexivity. Qed.
Lemma says_raise {S A} e l : says (S := S) (@raise S msg A e) l.
Proof. intros s. now exists l. Qed.
Lemma says_say {S} lg lv t : says (S := S) (say lg lv t) [mkmsg lg lv t].
Proof. intros s. reflexivity. Qed.
Lemma flagged_none t : Forall (flagged false) t -> t = [].
Proof. destruct 1 as [|m l [_ D] _]; [reflexivity|discriminate]. Qed.
Lemma says_plain {S A} (m : M S msg A) r : plain (flagged false) m r -> says m [].
Proof. intros H s. destruct (H s) as (t & -> & T). rewrite (flagged_none _ T). destruct r; cbn; [reflexivity|now exists []]. Qed.
Lemma says_mmapM {S A B} (f : A -> M S msg B) l : (forall x, says (f x) []) -> says (mmapM f l) [].
Proof.
  intros H. induction l as [|x l IH]; cbn [mmapM]; [apply says_ret|].
  apply says_first; [apply H|intros y]. apply says_first; [exact IH|intros ys]. apply says_ret.
Qed.

Ltac texts :=
  repeat match goal with
  | |- plain _ (say _ _ _) _ => apply plain_say
  | |- plain _ (bind (say _ _ _) _) _ => eapply plain_skip; [apply plain_say|]
  | |- plain _ (say_world _ _ _ _ _ _ _) _ => apply plain_say_world; intros ?
  end; first [exact I | split; reflexivity | idtac].
(** both programs with messages *)
Ltac simb :=
  match goal with
  | |- sim Fv Fv _ ?m ?m => apply sim_self
  | |- sim Fv Fv _ (bind (when _ _) _) _ => eapply (left_flagged true); [apply plain_when; intros _; texts|]
  | |- sim Fv Fv _ _ (bind (when _ _) _) => eapply (right_flagged true); [apply plain_when; intros _; texts|]
  | |- sim Fv Fv _ (let '(_, _) := ?k in _) _ => destruct k
  | |- sim Fv Fv _ (match ?k with _ => _ end) _ => destruct k
  | |- sim Fv Fv _ (let _ := _ in _) _ => cbv zeta
  | |- sim Fv Fv _ (bind ?m _) (bind ?m _) => apply sim_bind; [apply sim_self|intros ?]
  | |- sim Fv Fv _ (mmapM _ _) (mmapM _ _) => apply sim_mmapM; intros ?
  | |- sim Fv Fv _ (bind _ _) (bind _ _) => apply sim_bind; [|intros ?]
  end.
(** with messages against without *)
Ltac sima :=
  match goal with
  | |- sim F0 F0 _ (bind (when _ _) _) _ => eapply (left_silent (fun _ => True)); [apply plain_when; intros _; texts|]
  | |- sim F0 F0 _ (bind (say _ _ _) _) _ => eapply (left_silent (fun _ => True)); [texts|]
  | |- sim F0 F0 _ (ret _) _ => apply sim_ret
  | |- sim F0 F0 _ (lift _) _ => apply sim_lift
  | |- sim F0 F0 _ (raise _) _ => apply sim_raise
  | |- sim F0 F0 _ (let '(_, _) := ?k in _) _ => destruct k
  | |- sim F0 F0 _ (match ?k with _ => _ end) _ => destruct k
  | |- sim F0 F0 _ (let _ := _ in _) _ => cbv zeta
  | |- sim F0 F0 _ (bind (lift _) _) (bind (lift _) _) => apply sim_bind; [apply sim_lift|intros ?]
  | |- sim F0 F0 _ (bind (lon _ _ _) _) (bind (onW _ _ _ _) _) => apply sim_bind; [apply sim_refl_pure|intros ?]
  | |- sim F0 F0 _ (bind (ltick _ _ _ _) _) (bind (tick _ _ _ _) _) => apply sim_bind; [apply sim_refl_pure|intros ?]
  | |- sim F0 F0 _ (lon _ _ _) (onW _ _ _ _) => apply sim_refl_pure
  | |- sim F0 F0 _ (mmapM _ _) (mmapM _ _) => apply sim_mmapM; intros ?
  | |- sim F0 F0 _ (bind _ _) (bind _ _) => apply sim_bind; [|intros ?]
  end.
(** messages without the flag *)
Ltac sayw :=
  match goal with
  | |- says (bind (when _ _) _) _ => apply says_first; [eapply says_plain, plain_when; let D := fresh "D" in intros D; exfalso; rewrite ?andb_false_r in D; discriminate D|intros _]
  | |- says (ret _) [] => apply says_ret
  | |- says (lift _) [] => apply says_lift
  | |- says (raise _) _ => apply says_raise
  | |- says (lon _ _ _) [] => apply says_ext
  | |- says (let '(_, _) := ?k in _) _ => destruct k
  | |- says (let _ := _ in _) _ => cbv zeta
  | |- says (bind (lift _) _) _ => apply says_first; [apply says_lift|intros ?]
  | |- says (bind (lon _ _ _) _) _ => apply says_first; [apply says_ext|intros ?]
  | |- says (bind (ltick _ _ _ _) _) _ => apply says_first; [apply says_ext|intros ?]
  | |- says (mmapM _ _) [] => apply says_mmapM; intros ?
  end.

Section Programs.
Context (N : Num) (num f4 : N -> string) (dec : Z -> string).
Context (W : Type) (fun_text message_text time_text : W -> string).
Context (str_exp : option string).
Context (nexp nlog cdf pdf : N -> N) (npi : N).
Notation mx := (list (list N)).
Context (inv chol : mx -> res mx) (cho_solve : mx -> mx -> res mx) (slogdet : mx -> N * N) (ngamma ndigamma : N -> N).
Context (get_samples : string -> Z -> option Z -> W -> W * res (list (list N))).
Context (lbfgsb : (list N -> res N) -> list N -> list (N * N) -> W -> W * res (list N)).
Context (direct : (list N -> res N) -> list (N * N) -> W -> W * res (list N)).
Context (cma : (list N -> res N) -> list N -> list (N * N) -> W -> W * res (list N)).
Context (time_ : W -> W * N).
Context (minimize : W -> minimizer N) (after : mat N -> list N -> string -> W -> W).
Context (prior_mu : prior N).
Context (choice : nat -> nat -> bool -> W -> W * res (list nat)) (uniform : N -> N -> W -> W * res N) (trunc : N -> option Z)
  (schedule : nat -> list nat).
Context (fun_target : list N -> W -> W * res N).

Lemma gp_kernel_plain St d mini X Y cov opt msel ard fix_ :
  plain (flagged d) (l_gp_kernel N num W fun_text message_text time_text d nexp nlog npi inv chol cho_solve slogdet prior_mu St mini X Y cov opt msel ard fix_)
    (get_optimized_kernel nexp nlog npi inv chol cho_solve slogdet mini X Y prior_mu cov opt msel ard fix_).
Proof.
  unfold l_gp_kernel, get_optimized_kernel. repeat plain_step.
  match goal with |- plain _ (let '(_, _) := ?k in _) _ => destruct k as [[c i] u] end. repeat plain_step.
Qed.
Lemma tp_kernel_plain St d mini X Y cov opt ard fix_ :
  plain (flagged d) (l_tp_kernel N num W message_text time_text d nexp nlog npi inv slogdet ngamma ndigamma prior_mu St mini X Y cov opt ard fix_)
    (tp_get_optimized_kernel nexp nlog npi inv slogdet ngamma ndigamma mini X Y prior_mu cov opt ard fix_).
Proof.
  unfold l_tp_kernel, tp_get_optimized_kernel. repeat plain_step.
  match goal with |- plain _ (let '(_, _) := ?k in _) _ => destruct k as [[c i] u] end. repeat plain_step.
Qed.

(** ** The choice of hyperparameters *)
Lemma fit_runs {St A} d X Y meth (m : minimizer N -> M (St * W) msg A) r s w :
  (forall mini, plain (flagged d) (m mini) (r mini)) ->
  exists t, l_fit N W minimize after St X Y meth m (s, w) = ((s, after X Y meth w), t, r (minimize w)) /\ Forall (flagged d) t.
Proof. intros H. unfold l_fit. cbn [snd]. destruct (H (minimize w) (s, w)) as (t & -> & T). exists t. now split. Qed.
Lemma fit_sim {St A} d d' lax X Y meth (m m' : minimizer N -> M (St * W) msg A) r :
  (forall mini, plain (flagged d) (m mini) (r mini)) -> (forall mini, plain (flagged d') (m' mini) (r mini)) ->
  sim Fv Fv lax (l_fit N W minimize after St X Y meth m) (l_fit N W minimize after St X Y meth m').
Proof.
  intros H H' [s w]. destruct (fit_runs d X Y meth m r s w H) as (t & -> & T). destruct (fit_runs d' X Y meth m' r s w H') as (t' & -> & T').
  rewrite (flagged_invisible _ _ T), (flagged_invisible _ _ T'). repeat split. now left.
Qed.
Lemma fit_silent {St A} d lax X Y meth (m : minimizer N -> M (St * W) msg A) r (f : W -> W * res A) :
  (forall mini, plain (flagged d) (m mini) (r mini)) -> (forall w, f w = (after X Y meth w, r (minimize w))) ->
  sim F0 F0 lax (l_fit N W minimize after St X Y meth m) (onW N W St f).
Proof.
  intros H H' [s w]. destruct (fit_runs d X Y meth m r s w H) as (t & -> & T).
  unfold onW, ext. cbn [fst snd]. rewrite H'. rewrite !F0_nil. repeat split. now left.
Qed.
Lemma note_right {St A} lax e (m1 : M (St * W) msg A) k : sim F0 F0 lax m1 (k tt) -> sim F0 F0 lax m1 (bind (note N W St e) k).
Proof. apply sim_right. intros s. eexists. now split. Qed.
Lemma fit_says {St A} X Y meth (m : minimizer N -> M (St * W) msg A) r :
  (forall mini, plain (flagged false) (m mini) (r mini)) -> says (l_fit N W minimize after St X Y meth m) [].
Proof.
  intros H [s w]. destruct (fit_runs false X Y meth m r s w H) as (t & -> & T). rewrite (flagged_none _ T).
  destruct (r (minimize w)); cbn; [reflexivity|now exists []].
Qed.

(** ** Samples and the optimisation of the acquisition function *)
Notation GS d := (l_get_samples N num W d get_samples).
Notation OA d := (l_optimize_acq N num W d get_samples lbfgsb direct cma).

Lemma samples_sim {St} d d' lax lg m n seed : sim Fv Fv lax (GS d St lg m n seed) (GS d' St lg m n seed).
Proof. unfold l_get_samples. repeat simb. Qed.
Lemma samples_silent {St} d lax lg m n seed : sim F0 F0 lax (GS d St lg m n seed) (onW N W St (get_samples m n seed)).
Proof.
  unfold l_get_samples. repeat sima. intros s. unfold bind, lon, onW, ext, when, say. destruct (get_samples m n seed (snd s)) as [w [a|e]]; destruct d; cbn.
  all: repeat split; now left.
Qed.
Lemma samples_says {St} lg m n seed : says (GS false St lg m n seed) [].
Proof. unfold l_get_samples. repeat sayw. Qed.

Lemma acq_sim {St} d d' lax lg ob range fneg samp n seed : sim Fv Fv lax (OA d St lg ob range fneg samp n seed) (OA d' St lg ob range fneg samp n seed).
Proof. unfold l_optimize_acq. repeat (simb || apply samples_sim). Qed.
Lemma acq_silent {St} d lax lg ob range fneg samp n seed :
  sim F0 F0 lax (OA d St lg ob range fneg samp n seed) (optimize_acq N W get_samples lbfgsb direct cma St ob range fneg samp n seed).
Proof.
  unfold l_optimize_acq, optimize_acq. apply sim_bind; [|intros ?; repeat sima].
  destruct (ob =? "L-BFGS-B"); [apply sim_bind; [apply samples_silent|intros l]; apply sim_mmapM; intros x0|].
  - intros s. unfold bind, lon, onW, ext, when, say. destruct (lbfgsb _ _ _ (snd s)) as [w [a|e]]; destruct d; cbn.
    all: repeat split; now left.
  - destruct (ob =? "DIRECT"); [repeat sima|]. destruct (ob =? "CMA-ES"); [|repeat sima].
    sima. apply sim_bind; [apply samples_silent|intros l]. destruct l; repeat sima.
Qed.
Lemma acq_says {St} lg ob range fneg samp n seed : says (OA false St lg ob range fneg samp n seed)
  (if (ob =? "DIRECT") || (ob =? "CMA-ES") then [mkmsg lg DEBUG "num_samples is ignored."] else []).
Proof.
  unfold l_optimize_acq. apply says_last; [|intros ?; repeat sayw].
  destruct (ob =? "L-BFGS-B") eqn:E1.
  - apply String.eqb_eq in E1. subst ob. cbn [String.eqb Ascii.eqb Bool.eqb orb].
    apply says_first; [apply samples_says|intros l]. repeat sayw.
  - destruct (ob =? "DIRECT") eqn:E2; cbn [orb].
    + apply (says_bind _ _ [_] []); [apply says_say|intros _]. repeat sayw.
    + destruct (ob =? "CMA-ES"); [|apply says_ret].
      apply (says_bind _ _ [_] []); [apply says_say|intros _]. apply says_first; [apply samples_says|intros [|x l]]; repeat sayw.
Qed.

(** ** BOwGP.optimize *)
Notation GF d := (l_gp_fit N num W fun_text message_text time_text d nexp nlog npi inv chol cho_solve slogdet minimize after prior_mu).
Notation CS d := (l_combined_step N num W fun_text message_text time_text d nexp nlog npi inv chol cho_solve slogdet minimize after prior_mu).
Notation SU d := (l_gp_surrogate N num W fun_text message_text time_text d str_exp nexp nlog npi inv chol cho_solve slogdet minimize after prior_mu).
Notation GO d := (l_gp_optimize N num f4 W fun_text message_text time_text d str_exp nexp nlog cdf pdf npi inv chol cho_solve slogdet
  get_samples lbfgsb direct cma time_ minimize after prior_mu).
Notation gfit := (gp_fit_full nexp nlog npi inv chol cho_solve slogdet minimize after prior_mu).
Notation gkern := (gp_kernel_full nexp inv).
Notation gml := (gp_nlml_full nexp nlog npi inv chol cho_solve slogdet prior_mu).
Lemma gp_fit_sim d d' lax o meth X Y : sim Fv Fv lax (GF d o meth X Y) (GF d' o meth X Y).
Proof. unfold l_gp_fit. eapply fit_sim; intros mini; apply gp_kernel_plain. Qed.
Lemma gp_fit_silent d lax o meth X Y : sim F0 F0 lax (GF d o meth X Y) (gp_fit N W mx gfit o meth X Y).
Proof. unfold l_gp_fit, gp_fit. apply note_right. eapply fit_silent; [intros mini; apply gp_kernel_plain|reflexivity]. Qed.
Lemma gp_fit_says o meth X Y : says (GF false o meth X Y) [].
Proof. unfold l_gp_fit. eapply fit_says. intros mini. apply gp_kernel_plain. Qed.
Lemma combined_sim d d' lax o X Y meth b : sim Fv Fv lax (CS d o X Y meth b) (CS d' o X Y meth b).
Proof. unfold l_combined_step. repeat (simb || apply gp_fit_sim). Qed.
Lemma combined_silent d lax o X Y meth b : sim F0 F0 lax (CS d o X Y meth b) (combined_step N W mx gfit gml o X Y meth b).
Proof. unfold l_combined_step, combined_step. apply sim_bind; [apply gp_fit_silent|intros f]. repeat sima. Qed.
Lemma combined_says o X Y meth b : says (CS false o X Y meth b) [].
Proof. unfold l_combined_step. apply says_first; [apply gp_fit_says|intros f]. repeat sayw. Qed.
Lemma surrogate_sim d d' lax o mlm X Y : sim Fv Fv lax (SU d o mlm X Y) (SU d' o mlm X Y).
Proof.
  unfold l_gp_surrogate. destruct (mlm =? "regular"); [repeat (simb || apply gp_fit_sim)|].
  destruct (mlm =? "combined"); [repeat (simb || apply combined_sim)|].
  repeat (simb || apply gp_fit_sim).
Qed.
Lemma surrogate_silent d lax o mlm X Y : sim F0 F0 lax (SU d o mlm X Y) (gp_surrogate N W mx gfit gkern gml o mlm X Y).
Proof.
  unfold l_gp_surrogate, gp_surrogate. destruct (mlm =? "regular"); [apply sim_bind; [apply gp_fit_silent|intros f; repeat sima]|].
  destruct (mlm =? "combined"); [repeat (apply sim_bind; [apply combined_silent|intros ?]); repeat sima|].
  destruct (mlm =? "converged"); [|apply sim_raise].
  apply sim_bind; [intros s; repeat split; now left|intros s]. destruct (gs_opt N s).
  - apply sim_bind; [apply gp_fit_silent|intros f]. apply sim_bind; [intros s0; repeat split; now left|intros s'].
    apply sim_bind; [apply sim_lift|intros c]. apply sim_bind; [intros s0; repeat split; now left|intros _]. apply sim_ret.
  - sima. destruct (rev (gs_hist N s)) as [|[h|] l]; repeat sima.
Qed.
Lemma says_get {St} : says (lget W St) [].
Proof. intros s. reflexivity. Qed.
Lemma says_put {St} s : says (lput W St s) [].
Proof. intros s0. reflexivity. Qed.
Lemma surrogate_says o mlm X Y : says (SU false o mlm X Y) [].
Proof.
  unfold l_gp_surrogate. destruct (mlm =? "regular"); [apply says_first; [apply gp_fit_says|intros f; repeat sayw]|].
  destruct (mlm =? "combined"); [repeat (apply says_first; [apply combined_says|intros ?]); repeat sayw|].
  destruct (mlm =? "converged"); [|apply says_raise].
  apply says_first; [apply says_get|intros s]. destruct (gs_opt N s).
  - apply says_first; [apply gp_fit_says|intros f]. apply says_first; [apply says_get|intros s'].
    apply says_first; [apply says_lift|intros c]. apply says_first; [apply says_put|intros _]. apply says_ret.
  - sayw. destruct (rev (gs_hist N s)) as [|[h|] l]; repeat sayw.
Qed.
Lemma gp_sim d d' lax o X Y samp n mlm seed : sim Fv Fv lax (GO d o X Y samp n mlm seed) (GO d' o X Y samp n mlm seed).
Proof. unfold l_gp_optimize. repeat (simb || apply surrogate_sim || apply acq_sim). Qed.
Lemma gp_silent d lax o X Y samp n mlm seed : sim F0 F0 lax (GO d o X Y samp n mlm seed)
  (gp_optimize_full nexp nlog cdf pdf npi inv chol cho_solve slogdet get_samples lbfgsb direct cma time_ minimize after prior_mu o X Y samp n mlm seed).
Proof.
  unfold l_gp_optimize, gp_optimize_full, gp_optimize. do 9 sima.
  apply sim_bind; [apply surrogate_silent|intros f]. apply sim_bind; [intros s; repeat split; now left|intros s].
  apply sim_bind; [intros s0; repeat split; now left|intros _]. do 2 sima. cbv zeta.
  apply sim_bind; [apply acq_silent|intros [p q]]. repeat sima.
Qed.
Lemma gp_says o X Y samp n mlm seed : says (GO false o X Y samp n mlm seed)
  (if (go_opt_bo N o =? "DIRECT") || (go_opt_bo N o =? "CMA-ES") then [mkmsg (bo_logger_name "gp" str_exp) DEBUG "num_samples is ignored."] else []).
Proof.
  unfold l_gp_optimize. repeat sayw.
  apply says_first; [apply surrogate_says|intros f]. apply says_first; [apply says_get|intros s].
  apply says_first; [apply says_put|intros _]. repeat sayw.
  apply says_last; [apply acq_says|intros [p q]]. repeat sayw. destruct f as [[[c i] h]|]; repeat sayw.
Qed.

(** ** BOwTP.optimize *)
Notation TO d := (l_tp_optimize N num f4 W message_text time_text d str_exp nexp nlog cdf pdf npi inv slogdet ngamma ndigamma
  get_samples lbfgsb direct cma time_ minimize after prior_mu).
Lemma tp_sim d d' lax o X Y samp n seed : sim Fv Fv lax (TO d o X Y samp n seed) (TO d' o X Y samp n seed).
Proof. unfold l_tp_optimize. repeat (simb || apply acq_sim || (eapply fit_sim; intros mini; apply tp_kernel_plain)). Qed.
Lemma tp_silent d lax o X Y samp n seed : sim F0 F0 lax (TO d o X Y samp n seed)
  (tp_optimize_full nexp nlog cdf pdf npi inv slogdet ngamma ndigamma get_samples lbfgsb direct cma time_ minimize after prior_mu o X Y samp n seed).
Proof.
  unfold l_tp_optimize, tp_optimize_full, tp_optimize. do 8 sima.
  apply note_right. apply sim_bind; [eapply fit_silent; [intros mini; apply tp_kernel_plain|reflexivity]|intros [[c i] h]].
  apply sim_bind; [intros s; repeat split; now left|intros s].
  apply sim_bind; [intros s0; repeat split; now left|intros _]. do 2 sima. cbv zeta.
  apply sim_bind; [apply acq_silent|intros [p q]]. repeat sima.
Qed.
Lemma tp_says o X Y samp n seed : says (TO false o X Y samp n seed)
  (if (to_opt_bo N o =? "DIRECT") || (to_opt_bo N o =? "CMA-ES") then [mkmsg (bo_logger_name "tp" str_exp) DEBUG "num_samples is ignored."] else []).
Proof.
  unfold l_tp_optimize. repeat sayw.
  apply says_first; [eapply fit_says; intros mini; apply tp_kernel_plain|intros [[c i] h]]. apply says_first; [apply says_get|intros s].
  apply says_first; [apply says_put|intros _]. repeat sayw.
  apply says_last; [apply acq_says|intros [p q]]. repeat sayw.
Qed.

(** ** BOwTrees.optimize *)
Notation RO d := (l_rf_optimize N num f4 W d str_exp nlog cdf pdf get_samples time_ choice uniform trunc schedule).
Lemma rf_sim d d' lax o X Y samp n seed : sim Fv Fv lax (RO d o X Y samp n seed) (RO d' o X Y samp n seed).
Proof. unfold l_rf_optimize. repeat (simb || apply samples_sim). Qed.
Lemma rf_silent d lax o X Y samp n seed : sim F0 F0 lax (RO d o X Y samp n seed)
  (rf_optimize_full nlog cdf pdf get_samples time_ choice uniform trunc schedule o X Y samp n seed).
Proof.
  unfold l_rf_optimize, rf_optimize_full, rf_optimize. do 8 sima. apply note_right. do 3 sima.
  apply sim_bind; [apply samples_silent|intros l]. repeat sima.
Qed.
Lemma rf_says o X Y samp n seed : says (RO false o X Y samp n seed) [].
Proof.
  unfold l_rf_optimize. repeat sayw. apply says_first; [apply samples_says|intros l]. repeat sayw.
Qed.
End Programs.
