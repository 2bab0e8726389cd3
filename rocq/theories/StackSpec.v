(** Vocabulary for the decoder's search stacks. *)
From Coq Require Import ZArith List Sorted Permutation.
Import ListNotations.

(** A hypothesis as the stacks see it: its score, the decoder state used for recombination, its equivalence class (the sub-stack it
    belongs to) and whatever else it carries. *)
Record hyp := { hscore : Z; hstate : nat; hclass : nat * nat; hdata : nat }.

(** scores never increase along the list *)
Definition non_increasing (l : list hyp) : Prop := StronglySorted (fun a b => (hscore b <= hscore a)%Z) l.
(** [kept] is a best-k selection of [all]: kept and dropped make up all, sizes fit, nothing dropped beats anything kept *)
Definition best_k (k : nat) (all kept : list hyp) : Prop :=
  exists dropped, Permutation all (kept ++ dropped) /\ length kept = Nat.min k (length all) /\
    forall a b, In a kept -> In b dropped -> (hscore b <= hscore a)%Z.

(** client calls on the multi-stack *)
Inductive ms_op := Push (h : hyp) | Pop | RemoveLast | SetBf (b : bool).
(** the hypotheses pushed in a session *)
Fixpoint pushed (ops : list ms_op) : list hyp :=
  match ops with [] => [] | Push h :: r => h :: pushed r | _ :: r => pushed r end.
(** hypotheses of the same state belong to the same class *)
Definition classes_by_state (ops : list ms_op) : Prop :=
  forall a b, In a (pushed ops) -> In b (pushed ops) -> hstate a = hstate b -> hclass a = hclass b.
(** lexicographic order of classes (std::less on pairs) *)
Definition cls_lt (a b : nat * nat) : Prop := fst a < fst b \/ (fst a = fst b /\ snd a < snd b).

(** states in order of first occurrence *)
Fixpoint first_uses (l : list nat) : list nat :=
  match l with [] => [] | s :: r => s :: filter (fun x => negb (Nat.eqb x s)) (first_uses r) end.
(** the score last given to a state *)
Fixpoint last_score (s : nat) (hs : list hyp) : option Z :=
  match hs with [] => None | h :: r => match last_score s r with Some z => Some z | None => if Nat.eqb (hstate h) s then Some (hscore h) else None end end.

(** calls on a single stack *)
Inductive st_op := SPush (h : hyp) | SPop | SRemoveLast.
