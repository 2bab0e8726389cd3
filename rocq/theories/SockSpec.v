(** Messages exchanged over a socket. *)
From Coq Require Import NArith ZArith List.
Import ListNotations.

Inductive msg := MInt (z : Z) | MStr (s : list N).
(** a 32-bit int; a string without zero bytes whose length is an int *)
Definition msg_ok (m : msg) : Prop :=
  match m with
  | MInt z => (-2^31 <= z < 2^31)%Z
  | MStr s => Forall (fun b => 0 < b < 256)%N s /\ (Z.of_nat (length s) < 2^31)%Z
  end.
