(** What online learning should have counted. *)
From Coq Require Import ZArith List Bool Arith.
From Verif Require Import OnlModel.
Import ListNotations.
Local Open Scope nat_scope.
Definition occ (p : ppair) (l : list ppair) : Z := Z.of_nat (count_occ ppair_dec l p).
(** the samples trained on at the arrival of sample k, with the phrase pairs extracted from them, in order *)
Definition visits (E R : nat) (ex : nat -> nat -> list ppair) (k : nat) : list (nat * list ppair) :=
  flat_map (fun i => if R <=? k + i * (R / E) then [(k + i * (R / E) - R, ex k i)] else []) (seq 1 E).
Definition visit_log (E R : nat) (ex : nat -> nat -> list ppair) (k0 len : nat) : list (nat * list ppair) := flat_map (visits E R ex) (seq k0 len).
(** phrase pairs extracted last from a sample; the log is read latest first *)
Fixpoint latest (log : list (nat * list ppair)) (n : nat) : list ppair := match log with [] => [] | (m, l) :: r => if m =? n then l else latest r n end.
(** occurrences in the last extractions of the samples 0..B-1 *)
Fixpoint once_each (log : list (nat * list ppair)) (p : ppair) (B : nat) : Z := match B with O => 0%Z | S b => (once_each log p b + occ p (latest log b))%Z end.
