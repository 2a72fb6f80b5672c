(** Vocabulary for formatted arrays and for loggers. *)
From Verif Require Import Base LoggerModel.
From Coq Require Import List ZArith Bool Ascii String.
Set Implicit Arguments.
Local Open Scope string_scope.

(** nested lists of strings *)
Inductive tree : Type := Leaf (s : string) | Node (l : list tree).
(** arr.tolist() with formatted entries, and the formatted entries in order *)
Definition nested {A} (f : A -> string) (a : tensor A) : tree :=
  match a with
  | T1 l => Node (map (fun x => Leaf (f x)) l)
  | T2 l => Node (map (fun r => Node (map (fun x => Leaf (f x)) r)) l)
  | T3 l => Node (map (fun m => Node (map (fun r => Node (map (fun x => Leaf (f x)) r)) m)) l)
  | TN _ _ => Node []
  end.
Definition entries {A} (a : tensor A) : list A :=
  match a with T1 l => l | T2 l => List.concat l | T3 l => List.concat (map (@List.concat A) l) | TN _ _ => [] end.
Definition rank_ok {A} (a : tensor A) : Prop := match a with TN _ _ => False | _ => True end.

(** characters that structure the text *)
Definition structural (c : ascii) : bool :=
  (Ascii.eqb c "[" || Ascii.eqb c "]" || Ascii.eqb c "{" || Ascii.eqb c "}" || Ascii.eqb c "," || Ascii.eqb c "010")%bool.
Fixpoint has_no (p : ascii -> bool) (s : string) : bool :=
  match s with EmptyString => true | String c r => negb (p c) && has_no p r end.
(** an acceptable formatted entry *)
Definition plain (s : string) : Prop := s <> "" /\ has_no structural s = true.

(** dictionary values *)
Definition dnested {A} (is_float : A -> bool) (f3 str : A -> string) (v : dval A) : tree :=
  match v with DArr a => nested (fun x => if is_float x then f3 x else str x) a | DFloat x => Leaf (f3 x) | DOther x => Leaf (str x) end.
Definition dplain {A} (is_float : A -> bool) (f3 str : A -> string) (v : dval A) : Prop :=
  match v with
  | DArr a => Forall (fun x => plain (if is_float x then f3 x else str x)) (entries a)
  | DFloat x => plain (f3 x)
  | DOther x => plain (str x)
  end.
Definition is_quote (c : ascii) : bool := Ascii.eqb c "'".

(** the words of a text: maximal runs of characters other than structural ones and blanks *)
Definition separator (c : ascii) : bool := (structural c || Ascii.eqb c " ")%bool.
Fixpoint words_from (acc : string) (s : string) : list string :=
  match s with
  | EmptyString => if acc =? "" then [] else [acc]
  | String c r =>
      if separator c then ((if acc =? "" then [] else [acc]) ++ words_from "" r)%list
      else words_from (acc ++ String c "") r
  end.
Definition words (s : string) : list string := words_from "" s.
Definition one_word (s : string) : Prop := s <> "" /\ has_no separator s = true.

(** the words of a dictionary value, and the word of a key *)
Definition dwords {A} (is_float : A -> bool) (f3 str : A -> string) (v : dval A) : list string :=
  match v with DArr a => map (fun x => if is_float x then f3 x else str x) (entries a) | DFloat x => [f3 x] | DOther x => [str x] end.
Definition key_word (k : string) : string := "'" ++ k ++ "':".

(** how often a name, or an ancestor of it in the hierarchy of loggers, was requested *)
Inductive ancestor : string -> string -> Prop :=
| anc_root n : ancestor "" n
| anc_dot a b : ancestor a (a ++ "." ++ b).
Definition request_all (names : list string) (h : handlers) : handlers := fold_left (fun h n => get_logger n h) names h.
(** [l1] is obtained from [l2] by leaving elements out *)
Inductive sublist {A} : list A -> list A -> Prop :=
| sub_nil l : sublist [] l
| sub_keep x l1 l2 : sublist l1 l2 -> sublist (x :: l1) (x :: l2)
| sub_drop x l1 l2 : sublist l1 l2 -> sublist l1 (x :: l2).

(** the loggers that importing the package requests: gp.py:19, gp_kernel.py:20, thompson_sampling.py:17, utils_bo.py:23, utils_plotting.py:22, tp.py:19, tp_kernel.py:20 *)
Definition module_loggers : list string := ["gp"; "gp_kernel"; "thompson_sampling"; "utils_bo"; "utils_plotting"; "tp"; "tp_kernel"].
(** the experiment name of an object has no dot *)
Definition is_dot (c : ascii) : bool := Ascii.eqb c ".".
Definition undotted (e : option string) : Prop := match e with Some e => has_no is_dot e = true | None => True end.
Definition object_dec (p q : string * option string) : {p = q} + {p <> q}.
Proof. repeat decide equality. Defined.
