(** Vocabulary for the word graph of a search (see SearchSpec.v for the search space, WgSpec.v for graphs and paths). *)
From Coq Require Import ZArith List Arith.
From Verif Require Import WgSpec SearchSpec.
Import ListNotations.
Open Scope nat_scope.
Section SearchWg.
Variable H : Type.
Variable succs : H -> list (H * Z).
Variable words : H -> list nat.
(** extending a hypothesis appends to its translation and covers more of the sentence *)
Definition appending (start : H) (dist : H -> nat) : Prop :=
  forall a b e, from_start H succs start a -> In (b, e) (succs a) -> (exists x, words b = words a ++ x) /\ dist a < dist b.
(** hypotheses of equal state can be extended in the same ways: same score, same words, and again equal states *)
Definition labelled_states (start : H) (state : H -> nat) (heur : H -> Z) (dist : H -> nat) : Prop :=
  forall a b, from_start H succs start a -> from_start H succs start b -> state a = state b -> heur a = heur b /\ dist a = dist b /\
    forall c e, In (c, e) (succs a) -> exists d, In (d, e) (succs b) /\ state c = state d /\
      forall x, words c = words a ++ x -> words d = words b ++ x.
(** the words along a path *)
Definition path_words (arcs : list arc) (p : list nat) : list nat :=
  flat_map (fun i => match nth_error arcs i with Some a => a_words a | None => [] end) p.
End SearchWg.
