(** Prefix trees as maps from non-empty key sequences, and word counts. *)
From Coq Require Import List Arith.
Import ListNotations.

Definition is_prefix {A} (p q : list A) : Prop := exists r, q = p ++ r.
Definition proper_prefix {A} (p q : list A) : Prop := exists r, q = p ++ r /\ r <> [].
(** number of times a word occurs in a list of words *)
Definition times {A} (dec : forall a b : A, {a = b} + {a <> b}) (w : A) (ws : list A) : nat := count_occ dec ws w.
(** the longest sequence of a list, and the number of sequences of a given length *)
Definition longest {A} (l : list (list A)) : nat := fold_right (fun q m => Nat.max (length q) m) 0 l.
Definition of_length {A} (n : nat) (l : list (list A)) : nat := length (filter (fun q => length q =? n) l).
(** the sentences of complete blocks of [r] sentences *)
Definition complete_blocks {A} (r : nat) (l : list A) : list A := firstn (r * (length l / r)) l.
(** entries by strictly decreasing count *)
Inductive desc {B} : list (nat * B) -> Prop :=
| desc_nil : desc []
| desc_cons : forall c s l, desc l -> (forall c' s', In (c', s') l -> c' < c) -> desc ((c, s) :: l).
