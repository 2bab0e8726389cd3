(** Vocabulary for C39 and C40: the calls a client thread makes on one decoder object, and what a trace of them is. *)
From Coq Require Import Arith List.
Import ListNotations.
(** inner critical sections a call goes through while it works: pre/post-processing a line, or looking up the slot of a user *)
Inductive access := Pre | Find (user : nat).
Inductive call :=
| Translate (user : nat) (work : list access) (* any per-user translation or assisted-translation operation *)
| Train (work : list access)                  (* online training of the models or of the error-correction model *)
| InitUser (work : list access)               (* set the parameters of a user *)
| Clear                                       (* empty the decoder *)
| Print                                       (* write the models to disk, print weights *)
| Release (user : nat)                        (* free the data of a user *)
| IsNew (user : nat).                         (* is this user unknown? *)
(** operations that change the models or the user table *)
Definition exclusive (c : call) : Prop := match c with Train _ | InitUser _ | Clear => True | _ => False end.
Definition translates_for (u : nat) (c : call) : Prop := match c with Translate v _ => v = u | _ => False end.
(** a finished call: who made it, what it was, and whether it succeeded *)
Definition done := (nat * call * bool)%type.
(** calls that only consult or release one user *)
Definition user_table_only (c : call) : Prop := match c with Release _ | IsNew _ => True | _ => False end.
