(** Files of counts.  A record (s,t,n,d) says: the log of the count of t with s is n, the log of the count of s is d. *)
From Coq Require Import Reals List Sorted.
From Verif Require Import LogNum RSums MrModel.
Import ListNotations.
Open Scope R_scope.
Section SPEC.
Context {K1 K2 : Type}.
Variable lt1 : K1 -> K1 -> bool.
Variable lt2 : K2 -> K2 -> bool.
Variable d1 : forall a b : K1, {a = b} + {a <> b}.
Variable d2 : forall a b : K2, {a = b} + {a <> b}.
Notation record := (rec K1 K2).
Definition finite (a : lg) : Prop := exists r, a = Fin r.
Definition strictly_sorted (f : list record) : Prop := StronglySorted (fun a b => lt1 (rs a) (rs b) = true \/ (rs a = rs b /\ lt2 (rt a) (rt b) = true)) f.
Definition has (f : list record) (s : K1) (t : K2) : Prop := exists r, In r f /\ rs r = s /\ rt r = t.
(** count of t with s in a file; count of s in a file (0 if it does not occur) *)
Definition count_of (f : list record) (s : K1) (t : K2) : R := sumf (fun r => if d1 (rs r) s then if d2 (rt r) t then lgexp (rn r) else 0 else 0) f.
Definition total_of (f : list record) (s : K1) : R :=
  match find (fun r => if d1 (rs r) s then true else false) f with Some r => lgexp (rd r) | None => 0 end.
(** numbers are finite and a source has one total *)
Definition consistent (f : list record) : Prop :=
  forall r, In r f -> finite (rn r) /\ finite (rd r) /\ forall r', In r' f -> rs r' = rs r -> rd r' = rd r.
Definition is_merge (fs : list (list record)) (out : list record) : Prop :=
  strictly_sorted out /\ consistent out /\
  (forall s t, has out s t <-> exists f, In f fs /\ has f s t) /\
  (forall s t, count_of out s t = sumf (fun f => count_of f s t) fs) /\
  (forall s, total_of out s = sumf (fun f => total_of f s) fs).
(** ---- pruning: out keeps, for every source, its most frequent targets: at most n of them (n>0), all with relative frequency at least c *)
Definition mass (f : list record) (s : K1) : R := sumf (fun r => if d1 (rs r) s then lgexp (rn r) else 0) f.
Definition freq (f : list record) (r : record) : R := lgexp (rn r) / mass f (rs r).
Definition number (f : list record) (s : K1) : nat := length (filter (fun r => if d1 (rs r) s then true else false) f).
Definition kept (out : list record) (r : record) : Prop := exists r', In r' out /\ rs r' = rs r /\ rt r' = rt r.
Definition is_pruned (n : nat) (c : R) (f out : list record) : Prop :=
  NoDup (map (fun r => (rs r, rt r)) out) /\
  (forall r, In r out -> exists r0, In r0 f /\ rs r0 = rs r /\ rt r0 = rt r /\ rn r0 = rn r) /\
  (forall s, (0 < n)%nat -> (number out s <= n)%nat) /\
  (forall r, In r out -> c <= freq f r) /\
  (forall r, In r f -> ~ kept out r -> ((0 < n)%nat /\ number out (rs r) = n) \/ freq f r < c) /\
  (forall r r', In r f -> ~ kept out r -> In r' out -> rs r' = rs r -> lgexp (rn r) <= lgexp (rn r')) /\
  (forall r, In r out -> finite (rd r) /\ lgexp (rd r) = mass out (rs r)).
End SPEC.
(** strict total order *)
Definition total_order {K} (lt : K -> K -> bool) : Prop :=
  (forall a, lt a a = false) /\ (forall a b c, lt a b = true -> lt b c = true -> lt a c = true) /\ (forall a b, lt a b = false -> lt b a = false -> a = b).
