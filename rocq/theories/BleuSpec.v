(** Vocabulary for BLEU: n-grams of a sentence, multiset intersection. *)
From Coq Require Import List Arith.
Import ListNotations.
Section S.
Variable A : Type.
Variable eqd : forall x y : A, {x = y} + {x <> y}.
(** the n-grams of a sentence, one per starting position *)
Fixpoint ngrams (n : nat) (s : list A) : list (list A) :=
  if Nat.ltb (length s) n then [] else firstn n s :: match s with [] => [] | _ :: r => ngrams n r end.
Definition geqd : forall x y : list A, {x = y} + {x <> y} := list_eq_dec eqd.
(** occurrences of a n-gram in a list *)
Definition occ (g : list A) (l : list (list A)) : nat := count_occ geqd l g.
Fixpoint sum (l : list nat) : nat := match l with [] => 0 | x :: r => x + sum r end.
(** number of common elements, with multiplicity: each distinct n-gram counts as often as it occurs in both *)
Definition common (a b : list (list A)) : nat := sum (map (fun g => Nat.min (occ g a) (occ g b)) (nodup geqd a)).
End S.
Arguments ngrams {A}. Arguments occ {A}. Arguments common {A}. Arguments geqd {A}.
