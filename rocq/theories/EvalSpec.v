(** Translation metrics: word error rate, general text matcher, chrF. *)
From Coq Require Import Ascii String Arith ZArith QArith List Bool.
From Verif Require Import TextSpec EditDistSpec BleuSpec.
Import ListNotations.
Local Open Scope nat_scope.
(** the words of a line *)
Definition toks (s : str) : list str := words blank s.
(** [d] is the least number of word insertions, deletions and substitutions *)
Definition edits (a b : list str) (d : nat) : Prop := cheapest (fun _ _ => 0%Z) (fun _ _ => 1%Z) (fun _ => 1%Z) (fun _ => 1%Z) a b (Z.of_nat d).
(** words two lines have in common, with multiplicity *)
Definition shared (a b : list str) : nat := common ascii_dec a b.
Definition nq (n : nat) : Q := inject_Z (Z.of_nat n).
(** the words of a line joined by single blanks *)
Definition joined (s : str) : str := match toks s with [] => [] | w :: v => w ++ concat (map (fun x => " "%char :: x) v) end.
(** character n-grams two texts have in common, with multiplicity *)
Definition grams (n : nat) (s r : str) : nat := common ascii_dec (ngrams n s) (ngrams n r).
(** share of the n-grams of [s] that occur in [r]; 1 for a text without n-grams *)
Definition share (n : nat) (s r : str) : Q := if length s <? n then 1%Q else (nq (grams n s r) / nq (length s + 1 - n))%Q.
Definition mean_share (s r : str) (m d : nat) : Q := (fold_right Qplus 0 (map (fun n => share n s r) (seq 1 m)) / nq d)%Q.
(** two texts with the same n-grams, up to four characters *)
Definition same_grams (s r : str) : Prop := forall n, 1 <= n <= 4 -> forall g, occ ascii_dec g (ngrams n s) = occ ascii_dec g (ngrams n r).
