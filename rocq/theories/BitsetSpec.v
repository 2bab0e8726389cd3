(** A bit set of [nw] 32-bit words denotes the number whose binary digits are its bits. *)
From Coq Require Import NArith List.
Import ListNotations.
Open Scope N_scope.

Fixpoint bs_value (ws : list N) : N :=
  match ws with [] => 0 | w :: r => w + 2 ^ 32 * bs_value r end.

(** [nw] words, each a 32-bit value *)
Definition bs_wf (nw : nat) (ws : list N) : Prop := length ws = nw /\ Forall (fun w => w < 2 ^ 32) ws.

(** number of positions below [J] at which [x] has a one *)
Fixpoint ones_below (J : nat) (x : N) : N :=
  match J with O => 0 | S j => ones_below j x + (if N.testbit x (N.of_nat j) then 1 else 0) end.
