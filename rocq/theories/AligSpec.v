(** Word alignments as sets of links. *)
From Coq Require Import NArith List.
Import ListNotations.

(** what an alignment matrix object shows to its users: dimensions and cell values *)
Record wam := mkwam { wI : nat; wJ : nat; wc : nat -> nat -> N }.
Definition inr (m : wam) (i j : nat) : Prop := i < wI m /\ j < wJ m.
Definition link (m : wam) (i j : nat) : Prop := inr m i j /\ wc m i j <> 0%N.
Definition same_dims (m w : wam) : Prop := wI m = wI w /\ wJ m = wJ w.
(** the two objects cannot be told apart *)
Definition wsame (m w : wam) : Prop := same_dims m w /\ forall i j, inr m i j -> wc m i j = wc w i j.
Definition row_aligned (m : wam) (i : nat) : Prop := exists j, link m i j.
Definition col_aligned (m : wam) (j : nat) : Prop := exists i, link m i j.
(** horizontal, vertical and diagonal neighbourhood *)
Definition horiz (m : wam) (i j : nat) : Prop := link m i (S j) \/ exists j', j = S j' /\ link m i j'.
Definition vert (m : wam) (i j : nat) : Prop := link m (S i) j \/ exists i', i = S i' /\ link m i' j.
(** the eight cells around a cell *)
Definition adjacent (i j i' j' : nat) : Prop := i' <= S i /\ i <= S i' /\ j' <= S j /\ j <= S j' /\ ~ (i = i' /\ j = j').
