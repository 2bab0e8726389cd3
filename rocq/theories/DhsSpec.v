(** Step-by-step minimization: a tool that is run again and again on the list of function values known so far. *)
From Coq Require Import Arith ZArith QArith List Bool.
Import ListNotations.
Local Open Scope nat_scope.
Definition point := list Q.
(** what a run answers: evaluate the function at a point, or the final point and value ([true]: the iteration limit was not reached) *)
Inductive answer := Evaluate (x : point) | Result (x : point) (y : Q) (ok : bool).
(** the list of values [im] built by answering every request of [tool] with the function [g], and the requested points *)
Inductive follows (tool : list Q -> answer) (g : point -> Q) : list Q -> list point -> Prop :=
| fol_nil : follows tool g [] []
| fol_snoc : forall im xs x, follows tool g im xs -> tool im = Evaluate x -> follows tool g (im ++ [g x]) (xs ++ [x]).
(** [m] is the first index of a smallest (largest) value *)
Definition first_min (f : list Q) (m : nat) : Prop := m < length f /\ (forall j, j < length f -> (nth m f 0 <= nth j f 0)%Q) /\ (forall j, j < m -> (nth m f 0 < nth j f 0)%Q).
Definition first_max (f : list Q) (m : nat) : Prop := m < length f /\ (forall j, j < length f -> (nth j f 0 <= nth m f 0)%Q) /\ (forall j, j < m -> (nth j f 0 < nth m f 0)%Q).
Definition qsum (l : list Q) : Q := fold_right Qplus 0%Q l.
(** coordinate [j] of the mean of the vertices other than [g] *)
Definition centre (v : list point) (g j : nat) : Q := (qsum (map (fun m => if m =? g then 0%Q else nth j (nth m v []) 0%Q) (seq 0 (length v))) / inject_Z (Z.of_nat (length v - 1)))%Q.
(** [x] lies on the line from vertex [w] through the centre, [t] times as far behind the centre *)
Definition on_line (v : list point) (g : nat) (t : Q) (x : point) : Prop := forall j, j < length v - 1 -> (nth j x 0 == centre v g j + t * (centre v g j - nth j (nth g v []) 0))%Q.
(** [x] is halfway between two vertices *)
Definition halfway (a b x : point) : Prop := forall j, j < length x -> (nth j x 0 == (nth j a 0 + nth j b 0) / (2 # 1))%Q.
(** the largest of the values below that of [w] *)
Definition second_max (f : list Q) (w h : nat) : Prop := h < length f /\ (nth h f 0 < nth w f 0)%Q /\ forall j, j < length f -> (nth j f 0 < nth w f 0)%Q -> (nth j f 0 <= nth h f 0)%Q.
