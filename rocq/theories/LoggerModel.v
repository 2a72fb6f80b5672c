(** Model of bayeso/utils/utils_logger.py and of the loggers requested by bayeso/bo/base_bo.py (79-82).

    Arrays carry their rank; entries are formatted by two parameters: [f3] is f'{elem:.3f}' (used when the entry
    is an instance of float) and [str] is f'{elem}'.  The logging module is modelled by the list of handlers that
    get_logger attached, in order; handlers or levels set by other code are not modelled. *)
From Verif Require Import Base Num HypsModel.
From Coq Require Import List ZArith Bool Ascii String.
Set Implicit Arguments.
Local Open Scope string_scope.

Definition nl : string := String "010" "".

Section Arrays.
Context (A : Type) (is_float : A -> bool) (f3 str : A -> string).

(** arrays of rank one, two and three, and of any other rank *)
Inductive tensor : Type :=
| T1 (l : list A)
| T2 (l : list (list A))
| T3 (l : list (list (list A)))
| TN (rank : nat).

(** utils_logger.py:63-68 *)
Definition elem_str (x : A) : string := if is_float x then f3 x else str x.
(** utils_logger.py:44-73 *)
Definition get_str_array_1d (l : list A) : string := "[" ++ concat ", " (map elem_str l) ++ "]".
(** utils_logger.py:76-97 *)
Definition get_str_array_2d (l : list (list A)) : string := "[" ++ concat ("," ++ nl) (map get_str_array_1d l) ++ "]".
(** utils_logger.py:100-121 *)
Definition get_str_array_3d (l : list (list (list A))) : string := "[" ++ concat ("," ++ nl) (map get_str_array_2d l) ++ "]".
(** utils_logger.py:124-151 *)
Definition get_str_array (a : tensor) : res string :=
  match a with
  | T1 l => Ok (get_str_array_1d l)
  | T2 l => Ok (get_str_array_2d l)
  | T3 l => Ok (get_str_array_3d l)
  | TN _ => Raise NotImplementedError
  end.

(** a value of a dictionary: an array, a float, anything else *)
Inductive dval : Type := DArr (a : tensor) | DFloat (x : A) | DOther (x : A).
Definition val_str (v : dval) : res string :=
  match v with
  | DArr a => get_str_array a
  | DFloat x => Ok (f3 x)
  | DOther x => Ok (str x)
  end.
(** utils_logger.py:154-184 *)
Definition get_str_hyps (hyps : list (string * dval)) : res string :=
  do l <- mapM (fun p => do s <- val_str (snd p); Ok ("'" ++ fst p ++ "': " ++ s)) hyps;
  Ok ("{" ++ concat ", " l ++ "}").
End Arrays.

(** ** logging *)
(** logging.getLogger: '' and 'root' name the root logger *)
Definition canonical (name : string) : string := if (name =? "") || (name =? "root") then "" else name.
(** the handlers attached so far, each given by the logger it is attached to *)
Definition handlers : Type := list string.
(** utils_logger.py:14-41: a new StreamHandler is added on every call *)
Definition get_logger (str_name : string) (h : handlers) : handlers := (h ++ [canonical str_name])%list.
(** [a] is the logger [n] or one of its ancestors: the root, or a prefix of [n] that ends before a dot *)
Definition at_or_above (a n : string) : bool := (a =? "") || (a =? n) || prefix (a ++ ".") n.
(** logger.debug/info(message) on the logger of that name: each handler of the logger and of its ancestors writes it
    (the level of the logger and of its handlers is DEBUG); the outcome lists the handlers that write *)
Definition log (str_name : string) (h : handlers) : list string := filter (fun a => at_or_above a (canonical str_name)) h.

(** base_bo.py:79-82 *)
Definition bo_logger_name (str_surrogate : string) (str_exp : option string) : string :=
  match str_exp with
  | Some e => "bo_w_" ++ str_surrogate ++ "_" ++ e
  | None => "bo_w_" ++ str_surrogate
  end.
