(** Vocabulary contents: the words in the order of their indices. *)
From Coq Require Import Ascii String Arith List.
From Verif Require Import TextSpec.
Import ListNotations.

Definition str_dec : forall a b : str, {a = b} + {a <> b} := list_eq_dec ascii_dec.
(** words in order of first use, starting with the three reserved ones *)
Definition reserved : list str := [T "NULL"; T "UNKNOWN_WORD"; T "<UNUSED_WORD>"].
Definition add_name (names : list str) (w : str) : list str := if in_dec str_dec w names then names else names ++ [w].
Definition names_after (ws : list str) : list str := fold_left add_name ws reserved.
(** position of the first occurrence *)
Fixpoint position (w : str) (names : list str) : option nat :=
  match names with [] => None | x :: r => if str_dec w x then Some 0 else option_map S (position w r) end.
