(** HMM alignment model (Vogel et al. 1996, Och & Ney 2003): a source sentence of n words gives the states 1..2n, where state i<=n is the
    source word i and state n+i is "NULL, coming from word i".  The target words are emitted along a path a of states; state 0 is the start. *)
From Coq Require Import Reals NArith Arith List.
From Verif Require Import RSums.
Import ListNotations.
Open Scope R_scope.
Section SPEC.
Context {T : Type}.
Variables (trans : nat -> nat -> R) (emit : nat -> T -> R).   (* trans previous-state state; emit state target-word *)
(** probability of the path a and the words t, from the state prev *)
Fixpoint path_prob (prev : nat) (a : list nat) (t : list T) : R :=
  match a, t with i :: a', w :: t' => trans prev i * emit i w * path_prob i a' t' | _, _ => 1 end.
End SPEC.
(** all paths for n source and m target words *)
Definition paths (n m : nat) : list (list nat) := seqs (seq 1 (2 * n)) m.
(** the source word a state stands for: nothing for a NULL state *)
Definition word_of (n i : nat) : nat := if Nat.leb i n then i else 0%nat.
Definition best_path {T} trans emit (n : nat) (t : list T) (a : list nat) : Prop :=
  In a (paths n (length t)) /\ forall b, In b (paths n (length t)) -> path_prob trans emit 0 b t <= path_prob trans emit 0 a t.
(** probability of the target words, summed over all paths *)
Definition total_prob {T} trans emit (n : nat) (t : list T) : R := sumf (fun a => path_prob trans emit 0 a t) (paths n (length t)).
(** posterior probability that the target position j (from 0) is emitted by the state i, and that positions j, j+1 are emitted by the states i', i *)
Definition state_post {T} trans emit (n : nat) (t : list T) (j i : nat) : R :=
  sumf (fun a => path_prob trans emit 0 a t) (filter (fun a => Nat.eqb (nth j a 0%nat) i) (paths n (length t))) / total_prob trans emit n t.
(** the state of the source word that the state i comes from, for n source words *)
Definition origin (n i : nat) : nat := if Nat.ltb n i then i - n else i.
(** which transitions exist: to every word; to the NULL state of the word the previous state comes from; from the start, to every NULL state *)
Definition allowed (n prev i : nat) : Prop := (1 <= i <= n)%nat \/ ((n < i <= 2 * n)%nat /\ (prev = 0%nat \/ (i - n)%nat = origin n prev)).
(** what the lexical and transition parameters are after smoothing: lam of the mass is uniform *)
Definition interpolated (lam p : R) (k : nat) : R := (1 - lam) * p + lam / INR k.
(** joint probability of the target words and of being in the state i at position j (from 0) *)
Definition state_joint {T} trans emit (n : nat) (t : list T) (j i : nat) : R :=
  sumf (fun a => path_prob trans emit 0 a t) (filter (fun a => Nat.eqb (nth j a 0%nat) i) (paths n (length t))).
(** the states that can follow prev *)
Definition dests (n prev : nat) : list nat := seq 1 n ++ (if Nat.eqb prev 0 then seq (n + 1) n else [(n + origin n prev)%nat]).
(** the transition distribution read in the tables before smoothing: log-counts [num row slen column] over [den row slen]; [tiny] for what was never seen.
    A NULL state shares the row of the word it comes from; from the start all the NULL states share the column slen+1.
    With a fixed probability p of NULL (P0 model) the row only distributes the remaining 1-p. *)
Definition cell (num : nat -> nat -> nat -> option R) (den : nat -> nat -> option R) (tiny : R) (row n col : nat) : R :=
  match num row n col, den row n with Some a, Some b => exp a / exp b | _, _ => tiny end.
Definition seen (num : nat -> nat -> nat -> option R) (den : nat -> nat -> option R) (row n col : nat) : Prop := num row n col <> None /\ den row n <> None.
Definition raw_trans num den (tiny : R) (p0 : option R) (n prev i : nat) : R :=
  if Nat.leb i n then
    match p0 with None => cell num den tiny (origin n prev) n i
                | Some p => match num (origin n prev) n i, den (origin n prev) n with Some a, Some b => (1 - p) * (exp a / exp b) | _, _ => tiny end end
  else match p0 with
       | None => cell num den tiny (origin n prev) n (n + (if Nat.eqb prev 0 then 1 else origin n prev))
       | Some p => if Nat.eqb prev 0 then p / INR n else p
       end.
