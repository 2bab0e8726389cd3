(** Which weight each feature has. *)
From Coq Require Import Ascii String QArith List.
From Verif Require Import TextSpec WeightModel.
Import ListNotations.
(** the features in order, each with the weight at its place, 1 when the weights run out *)
Fixpoint weighted (names : list str) (ws : list Q) : list (str * Q) :=
  match names with [] => [] | n :: r => (n ++ T "w", match ws with x :: _ => x | [] => 1%Q end) :: weighted r (tl ws) end.
(** over a history, latest event first: the weights set last; the weights in force; the features of the sentence translated last *)
Fixpoint last_set (h : list wop) : list Q := match h with [] => [] | SetWeights w :: _ => w | PreTrans _ _ :: r => last_set r end.
Definition in_force (h : list wop) : list Q :=
  match h with
  | PreTrans _ (x :: r) :: _ => x :: r
  | _ => last_set h
  end.
Fixpoint last_otf (otf0 : list str) (h : list wop) : list str := match h with [] => otf0 | PreTrans f _ :: _ => f | SetWeights _ :: r => last_otf otf0 r end.
