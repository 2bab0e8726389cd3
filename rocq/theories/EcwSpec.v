(** Paths of a word graph and the best (path, correction) pair for a typed prefix; used by C94, C95. *)
From Coq Require Import Ascii ZArith List Bool.
From Verif Require Import EditDistSpec TextSpec EcSpec.
Import ListNotations.
Open Scope Z_scope.

Section PATHS.
(** an arc: predecessor, successor, words, score; state 0 is initial and has score [s0] *)
Variable G : list (nat * nat * list word * Z).
Variable s0 : Z.

(** [gpath s ws c]: some path from the initial state to [s] reads the words [ws] and has score [c] *)
Inductive gpath : nat -> list word -> Z -> Prop :=
| gp_init : gpath 0 [] s0
| gp_arc : forall s t ws us c d, gpath s ws c -> In (s, t, us, d) G -> gpath t (ws ++ us) (c + d).

(** arcs are topologically ordered, every arc starts in a state that can be reached, none leads back to the initial state *)
Definition topo : Prop := forall a s t us d, nth_error G a = Some (s, t, us, d) ->
  t <> 0%nat /\
  (s = 0%nat \/ exists b s' us' d', (b < a)%nat /\ nth_error G b = Some (s', s, us', d')) /\
  (forall b s' us' d', nth_error G b = Some (s', s, us', d') -> (b < a)%nat).
End PATHS.

(** [nearest Q dist v]: [v] is the smallest value of [dist] over the members of [Q] *)
Definition nearest {A} (Q : A -> Prop) (dist : A -> Z -> Prop) (v : Z) : Prop :=
  (exists x, Q x /\ dist x v) /\ forall x d, Q x -> dist x d -> v <= d.

(** what may be reused when the user's prefix changes: the words before the first difference, provided the two prefixes do
    not agree again at a later position and neither is just the beginning of the other (the last word typed is treated as
    unfinished, all the others as finished) *)
Definition reusable (prev new : list word) : Prop :=
  exists c prev' new', prev = c ++ prev' /\ new = c ++ new' /\
    (forall i a b, nth_error prev' i = Some a -> nth_error new' i = Some b -> a <> b) /\
    (c = [] \/ (prev' <> [] /\ new' <> []) \/ (prev' = [] /\ new' = [])).
Fixpoint reusable_history (prev : list word) (ps : list (list word)) : Prop :=
  match ps with [] => True | p :: ps' => reusable prev p /\ reusable_history p ps' end.
