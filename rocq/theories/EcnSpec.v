(** The n best of a list of scored candidates; words compatible with what the user accepted and rejected; used by C96. *)
From Coq Require Import Ascii ZArith List Bool Sorted Permutation.
From Verif Require Import TextSpec EcSpec.
Import ListNotations.
Open Scope Z_scope.

Definition descending {A} (l : list (Z * A)) : Prop := StronglySorted (fun a b => fst b <= fst a) l.
(** [kept] are [n] best candidates of [all] in descending order *)
Definition n_best {A} (n : nat) (all kept : list (Z * A)) : Prop :=
  descending kept /\ length kept = Nat.min n (length all) /\
  exists dropped, Permutation all (kept ++ dropped) /\ forall a b, In a kept -> In b dropped -> fst b <= fst a.

(** [compatible rej w]: for every pair of an accepted beginning and a rejected continuation the word starts with the former
    and does not go on with exactly the latter *)
Definition compatible (rej : list (word * word)) (w : word) : Prop :=
  forall acc r, In (acc, r) rej -> exists t, w = acc ++ t /\ t <> r.
