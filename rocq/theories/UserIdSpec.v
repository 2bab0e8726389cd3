(** Vocabulary for the user-name registry: calls, answers, histories. *)
From Coq Require Import Ascii String Arith List.
From Coq Require Import DecimalString.
Import ListNotations.
Open Scope nat_scope.
(** the two calls clients make *)
Inductive call := IdFor (name : string) | Gen.
(** the answer: the name and its number *)
Definition answer := (string * nat)%type.
(** decimal notation *)
Definition decimal (n : nat) : string := NilEmpty.string_of_uint (Nat.to_uint n).
(** the names answered so far in a history, in order of first appearance *)
Fixpoint names_in_order (h : list (call * answer)) : list string :=
  match h with [] => [] | (_, (s, _)) :: r => s :: filter (fun x => if string_dec x s then false else true) (names_in_order r) end.
