(** Specification vocabulary for keys, independent of the encoding. *)
From Coq Require Import NArith List.
Import ListNotations.
Open Scope N_scope.

(** Strict lexicographic order on sequences, shorter-prefix first (std::vector / memcmp order). *)
Inductive lexlt : list N -> list N -> Prop :=
| lexlt_nil : forall y l, lexlt [] (y :: l)
| lexlt_head : forall x y l l', x < y -> lexlt (x :: l) (y :: l')
| lexlt_tail : forall x l l', lexlt l l' -> lexlt (x :: l) (x :: l').

(** Every element of the phrase is below a bound. *)
Definition words_below (bound : N) (v : list N) : Prop := Forall (fun w => w < bound) v.
(** The phrase does not use a reserved word. *)
Definition avoids (r : N) (v : list N) : Prop := ~ In r v.
