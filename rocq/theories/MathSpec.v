(** Specification of the numeric functions: number of ways of choosing k of n things, by Pascal's rule; sum of a sequence. *)
From Coq Require Import Reals.
Fixpoint binom (n k : nat) : nat :=
  match k, n with O, _ => 1 | S _, O => 0 | S k', S n' => binom n' k' + binom n' k end.
Fixpoint rsum (f : nat -> R) (n : nat) : R := match n with O => 0%R | S m => (rsum f m + f m)%R end.   (* f 0 + .. + f (n-1) *)
