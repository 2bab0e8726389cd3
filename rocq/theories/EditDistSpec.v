(** Edit scripts, independent of any table. *)
From Coq Require Import ZArith List.
Import ListNotations.
Open Scope Z_scope.

Inductive eop := NONE_OP | HIT_OP | INS_OP | SUBST_OP | DEL_OP | PREF_DEL_OP.

Section SCRIPT.
Context {A : Type}.
Variables (hitc subc : A -> A -> Z) (insc delc : A -> Z).

(** [script ops x y c]: applying [ops] from left to right turns [x] into [y] and costs [c] *)
Inductive script : list eop -> list A -> list A -> Z -> Prop :=
| sc_nil : script [] [] [] 0
| sc_hit : forall ops x y c a b, a = b -> script ops x y c -> script (HIT_OP :: ops) (a :: x) (b :: y) (hitc a b + c)
| sc_subst : forall ops x y c a b, a <> b -> script ops x y c -> script (SUBST_OP :: ops) (a :: x) (b :: y) (subc a b + c)
| sc_ins : forall ops x y c b, script ops x y c -> script (INS_OP :: ops) x (b :: y) (insc b + c)
| sc_del : forall ops x y c a, script ops x y c -> script (DEL_OP :: ops) (a :: x) y (delc a + c).

(** [d] is the cost of the cheapest script from [x] to [y] *)
Definition cheapest (x y : list A) (d : Z) : Prop :=
  (exists ops, script ops x y d) /\ forall ops c, script ops x y c -> d <= c.
(** [d] is the cheapest cost of turning some prefix of [x] into [y] *)
Definition cheapest_prefix (x y : list A) (d : Z) : Prop :=
  (exists x' r, x = x' ++ r /\ cheapest x' y d) /\ forall x' r c, x = x' ++ r -> cheapest x' y c -> d <= c.
End SCRIPT.

Definition eop_dec : forall a b : eop, {a = b} + {a <> b}.
Proof. decide equality. Defined.
Definition count_op (o : eop) (ops : list eop) : nat := count_occ eop_dec ops o.
