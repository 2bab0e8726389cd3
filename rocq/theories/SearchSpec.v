(** Vocabulary for the decoder's search, independent of any translation model: hypotheses, the ways to extend one (with the score of each
    extension), what is reachable and which translations are best. *)
From Coq Require Import ZArith List Arith.
Import ListNotations.
Section Search.
Variable H : Type.
Variable succs : H -> list (H * Z).
Variable complete : H -> bool.
(** [e] is the accumulated score of a sequence of extensions leading from [a] to [b] *)
Inductive extends (a : H) : H -> Z -> Prop :=
| ext_refl : extends a a 0
| ext_step : forall b e c f, extends a b e -> In (c, f) (succs b) -> extends a c (e + f).
(** [s] is the best score of a complete hypothesis obtained by extending [a], whose score is [sa] *)
Definition best_score (a : H) (sa s : Z) : Prop :=
  (exists c e, extends a c e /\ complete c = true /\ s = (sa + e)%Z) /\
  forall c e, extends a c e -> complete c = true -> (sa + e <= s)%Z.
(** hypotheses obtained by extending [start] *)
Definition from_start (start h : H) : Prop := exists e, extends start h e.
(** a search space without infinite or cyclic extensions: [size a] is the number of extension sequences starting at [a] *)
Definition finite_space (start : H) (size : H -> nat) : Prop :=
  forall a, from_start start a -> size a = S (list_sum (map (fun x => size (fst x)) (succs a))).
(** distance from the null hypothesis: at most [J], reached exactly by the complete hypotheses; these are not extended and need no estimate *)
Definition measured (start : H) (dist : H -> nat) (heur : H -> Z) (J : nat) : Prop :=
  forall h, from_start start h -> dist h <= J /\ (complete h = true <-> dist h = J) /\ (complete h = true -> succs h = [] /\ heur h = 0%Z).
(** recombination: hypotheses of equal state can be extended in the same ways at the same scores, and are estimated alike *)
Definition sound_states (start : H) (state : H -> nat) (heur : H -> Z) (dist : H -> nat) : Prop :=
  forall a b, from_start start a -> from_start start b -> state a = state b -> complete a = complete b /\ heur a = heur b /\ dist a = dist b /\
    forall c e, In (c, e) (succs a) -> exists d, In (d, e) (succs b) /\ state c = state d.
(** the estimate of the remaining score is never too low *)
Definition admissible (start : H) (heur : H -> Z) : Prop :=
  forall a c e, from_start start a -> extends a c e -> complete c = true -> (e <= heur a)%Z.
End Search.
