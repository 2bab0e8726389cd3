(** Batch MIRA weight tuning. *)
From Coq Require Import Ascii String Arith ZArith QArith Qminmax List Bool.
From Verif Require Import TextSpec.
Import ListNotations.
Local Open Scope nat_scope.
(** weights, features *)
Definition vec := list Q.
Fixpoint inner (a b : vec) : Q := match a, b with x :: a', y :: b' => (x * y + inner a' b')%Q | _, _ => 0%Q end.
Fixpoint minus_v (a b : vec) : vec := match a, b with x :: a', y :: b' => (x - y)%Q :: minus_v a' b' | _, _ => [] end.
Definition sq (a : vec) : Q := inner a a.
(** an element of a n-best list: text and features *)
Definition hyp := (str * vec)%type.
(** the objective of a step from [w0]: stay close, and let the hope outscore the fear by the difference of their qualities [delta] *)
Definition hinge (delta : Q) (d w : vec) : Q := Qmax 0 (delta - inner w d).
Definition objective (C : Q) (w0 : vec) (delta : Q) (d w : vec) : Q := ((1 # 2) * sq (minus_v w w0) + C * hinge delta d w)%Q.
(** [h] has the largest [f] *)
Definition best (f : hyp -> Q) (nb : list hyp) (h : hyp) : Prop := In h nb /\ forall h', In h' nb -> (f h' <= f h)%Q.
(** one step on an example with qualities [q] *)
Definition kb_step (C : Q) (nb : list hyp) (q : hyp -> Q) (w w' : vec) : Prop :=
  exists h f, best (fun x => (inner w (snd x) + q x)%Q) nb h /\ best (fun x => (inner w (snd x) - q x)%Q) nb f /\ (q f < q h)%Q /\
    (inner w (minus_v (snd h) (snd f)) < q h - q f)%Q /\ length w' = length w /\
    forall v, length v = length w ->
      (objective C w (q h - q f) (minus_v (snd h) (snd f)) w' + (1 # 2) * sq (minus_v v w') <= objective C w (q h - q f) (minus_v (snd h) (snd f)) v)%Q.
(** the weights visited from [w0], the last first *)
Inductive visited (step : vec -> vec -> Prop) (w0 : vec) : list vec -> Prop :=
| vis_start : visited step w0 [w0]
| vis_step : forall w l w', visited step w0 (w :: l) -> step w w' -> visited step w0 (w' :: w :: l).
Definition is_mean (a : vec) (l : list vec) : Prop :=
  forall w, In w l -> length a = length w /\ forall k, k < length a -> (nth k a 0 * inject_Z (Z.of_nat (length l)) == fold_right Qplus 0 (map (fun w => nth k w 0) l))%Q.
(** what tuning returns: of all evaluated weights (with their qualities) those with the highest positive quality *)
Definition chosen (evals : list (vec * Q)) (r : vec) : Prop :=
  (exists q, In (r, q) evals /\ (0 < q)%Q /\ forall a p, In (a, p) evals -> (p <= q)%Q) \/ (r = [] /\ forall a p, In (a, p) evals -> (p <= 0)%Q).
(** the first of the largest *)
Definition first_best (f : hyp -> Q) (nb : list hyp) (h : hyp) : Prop :=
  exists pre post, nb = pre ++ h :: post /\ (forall x, In x pre -> (f x < f h)%Q) /\ (forall x, In x post -> (f x <= f h)%Q).
(** a permutation of 0..n-1 given by its values: cyclic when following it from any position leads to 0 *)
Fixpoint orbit (p : list nat) (k i : nat) : nat := match k with 0 => i | S k' => nth (orbit p k' i) p 0 end.
Definition cyclic (p : list nat) : Prop := forall i, i < length p -> exists k, orbit p k i = 0.
