(** What a dictionary is expected to contain. *)
From Coq Require Import Ascii String QArith List Bool.
From Verif Require Import TextSpec DescSpec.
Import ListNotations.
(** the value of the last entry for a pair of phrases *)
Definition latest {V} (dec : forall a b : list str, {a = b} + {a <> b}) (es : list (list str * list str * V)) (s t : list str) : option V :=
  fold_left (fun a e => let '(s', t', v) := e in if dec s' s then (if dec t' t then Some v else a) else a) es None.
(** a line of a dictionary file: source words, a bar, target words, a bar, a number *)
Definition bars : str := list_ascii_of_string "|||".
Definition line_of (parse : str -> option Q) (l : str) (e : list str * list str * Q) : Prop :=
  let '(s, t, q) := e in exists num, flds_of l = s ++ bars :: t ++ [bars; num] /\ ~ In bars s /\ ~ In bars t /\ parse num = Some q.
