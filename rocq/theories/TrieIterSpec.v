(** Specification vocabulary for iterating over a trie keyed by sequences. *)
From Coq Require Import List.
Import ListNotations.

(** [l] lists exactly the pairs described by [P], each key once *)
Definition lists_exactly {A B} (P : A -> B -> Prop) (l : list (A * B)) : Prop :=
  NoDup (map fst l) /\ forall a b, In (a, b) l <-> P a b.
(** every listed key appears before every shorter initial segment of itself *)
Definition longest_first {A} (l : list (list A)) : Prop :=
  forall p r, r <> [] -> In p l -> forall l1 l2, l = l1 ++ p :: l2 -> ~ In (p ++ r) l2.
