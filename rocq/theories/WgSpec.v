(** Specification vocabulary for word graphs: arcs, paths of arcs, scores.  Nothing here mentions the algorithms. *)
From Coq Require Import ZArith List Sorted.
Import ListNotations.
Open Scope Z_scope.
(** An arc of a word graph: it leaves state [a_pred], enters state [a_succ], has a score and carries words (opaque here). *)
Record arc := { a_pred : nat; a_succ : nat; a_score : Z; a_words : list nat }.
(** What a caller puts into a graph: arc [i] is the i-th arc added; [pruned] tells which arcs were pruned. *)
Section Graph.
Variable arcs : list arc.
Variable pruned : list bool.
(** arc number i is [a] and it is not pruned *)
Definition alive (i : nat) (a : arc) : Prop := nth_error arcs i = Some a /\ nth_error pruned i = Some false.
(** [path s p t]: the arc numbers in [p] are consecutive non-pruned arcs leading from state s to state t *)
Inductive path : nat -> list nat -> nat -> Prop :=
| path_nil : forall s, path s [] s
| path_cons : forall i a p t, alive i a -> path (a_succ a) p t -> path (a_pred a) (i :: p) t.
(** score of a path: the sum of its arc scores *)
Fixpoint pscore (p : list nat) : Z :=
  match p with [] => 0 | i :: r => (match nth_error arcs i with Some a => a_score a | None => 0 end) + pscore r end.
(** The arcs are listed in topological order: an arc entering a state comes before every arc leaving it. *)
Definition topological : Prop :=
  forall i j a b, alive i a -> alive j b -> a_succ a = a_pred b -> (i < j)%nat.
(** t can be reached from s *)
Definition reaches (s t : nat) : Prop := exists p, path s p t.
(** complete path: non-empty, from the initial state 0, ending in a final state and not visiting one before *)
Definition first_final (finals : list nat) (p : list nat) : Prop :=
  forall q i r a, p = q ++ i :: r -> nth_error arcs i = Some a -> In (a_succ a) finals -> r = [].
Definition complete (finals : list nat) (p : list nat) : Prop :=
  p <> [] /\ exists t, In t finals /\ path 0%nat p t.
(** [z] is the maximum of the set [S] of integers *)
Definition is_max (P : Z -> Prop) (z : Z) : Prop := P z /\ forall y, P y -> y <= z.
(** sum of the absolute values of all the arc scores: no path in a topologically ordered graph can score more *)
Definition total_abs : Z := fold_right (fun a z => Z.abs (a_score a) + z) 0 arcs.
End Graph.
(** Calls a client makes to build a word graph: add an arc (with its score components), add a final state, set the score
    of the initial state, prune with a threshold, undo pruning. *)
Inductive wgop :=
| OArc (pred succ : nat) (words : list nat) (score : Z) (scr : list Z)
| OFinal (s : nat) | OInit (z : Z) | OPrune (lt : Z) | OUnprune.
(** the arcs added by a history, in order *)
Definition arcs_of (ops : list wgop) : list arc :=
  flat_map (fun o => match o with OArc p s w z _ => [{| a_pred := p; a_succ := s; a_score := z; a_words := w |}] | _ => [] end) ops.
(** the numbers, in increasing order, of the arcs that satisfy a test *)
Definition arc_numbers (test : arc -> bool) (arcs : list arc) : list nat :=
  filter (fun i => match nth_error arcs i with Some a => test a | None => false end) (seq 0 (length arcs)).
(** number of states known after a history: one more than the largest successor index *)
Definition states_of (ops : list wgop) : nat := fold_right (fun a n => Nat.max (S (a_succ a)) n) 0%nat (arcs_of ops).
(** every arc leaves a state that is known when it is added (or that it makes known) *)
Definition preds_known (ops : list wgop) : Prop :=
  forall h p s w z c r, ops = h ++ OArc p s w z c :: r -> (p < Nat.max (S s) (states_of h))%nat.
(** the graph has no cycle: its states can be ranked *)
Definition acyclic (arcs : list arc) : Prop :=
  exists r : nat -> nat, forall i a, nth_error arcs i = Some a -> (r (a_pred a) < r (a_succ a))%nat.
