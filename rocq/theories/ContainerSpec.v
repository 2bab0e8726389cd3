(** Specification vocabulary for the container classes: strict total orders, histories of container calls. *)
From Coq Require Import Arith ZArith List Bool Sorting.Sorted Permutation.
Import ListNotations.

(** [ltb] decides a strict total order *)
Record strict_total {K} (ltb : K -> K -> bool) : Prop := {
  st_irrefl : forall a, ltb a a = false;
  st_trans : forall a b c, ltb a b = true -> ltb b c = true -> ltb a c = true;
  st_total : forall a b, ltb a b = false -> ltb b a = false -> a = b }.

(** calls on an ordered vector *)
Inductive ov_op (K D : Type) : Type :=
| OvPush (k : K) (d : D)        (* push / insert *)
| OvIndex (k : K)               (* v[k] evaluated for its side effect *)
| OvPop
| OvClear.
Arguments OvPush {K D}. Arguments OvIndex {K D}. Arguments OvPop {K D}. Arguments OvClear {K D}.

(** the value last stored under [k] by a history without pops (oldest call first) *)
Fixpoint last_stored {K D} (keq : forall a b : K, {a = b} + {a <> b}) (dflt : D) (h : list (ov_op K D)) (k : K) (cur : option D) : option D :=
  match h with
  | [] => cur
  | OvPush k' d :: h' => last_stored keq dflt h' k (if keq k' k then Some d else cur)
  | OvIndex k' :: h' => last_stored keq dflt h' k (if keq k' k then match cur with None => Some dflt | _ => cur end else cur)
  | OvPop :: h' => last_stored keq dflt h' k cur
  | OvClear :: h' => last_stored keq dflt h' k None
  end.

Definition no_pop {K D} (h : list (ov_op K D)) : Prop := ~ In OvPop h.

(** [p] is a non-empty initial segment of [k] *)
Definition nonempty_prefix {K} (p k : list K) : Prop := p <> [] /\ exists r, k = p ++ r.

(** data last inserted under [k] by a history of trie insertions; insertions under the empty key are no-ops *)
Fixpoint last_inserted {K D} (keq : forall a b : K, {a = b} + {a <> b}) (h : list (list K * D)) (k : list K) (cur : option D) : option D :=
  match h with
  | [] => cur
  | (k', d) :: h' => last_inserted keq h' k (if list_eq_dec keq k' k then Some d else cur)
  end.

(** scored elements in non-increasing score order *)
Definition descending {D} (l : list (Z * D)) : Prop := StronglySorted (fun p q => (fst q <= fst p)%Z) l.
Definition with_score {D} (s : Z) (l : list (Z * D)) : list (Z * D) := filter (fun p => Z.eqb (fst p) s) l.
