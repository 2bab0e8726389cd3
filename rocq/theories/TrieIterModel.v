(** src/nlp_common/TrieVecs.h: the const_iterator of TrieVecs (lines 70-116 and 386-440). *)
From Coq Require Import Arith List Bool.
From Verif Require Import ContainerModel.
Import ListNotations.

Section ITER.
Context {K D : Type}.
Notation tr := (trie K D).

(** OrderedVector::const_iterator (OrderedVector.h:89-107, 455-476): a position in a child vector, represented by the children
    from that position to the end; [] is end().  operator++ stays at end(), and does nothing on the NULL vector of a node
    without children. *)
Definition oiter := list (K * tr).
Definition oi_incr (i : oiter) : oiter := tl i.

(** the iterator object: ItEnd is vecTrieVecsPtr = [NULL]; otherwise the stacks vecTrieVecsPtr and childrenIterVec (head of the
    list = back()), and vecKeyDataPair *)
Inductive titer : Type :=
| ItEnd
| ItAt (ptrs : list tr) (iters : list oiter) (key : list K) (dat : D).

(** "reach the deepest child": the while loops :92-97 and :419-424 together with the two statements that follow them.  [t] is
    vecTrieVecsPtr.back(). *)
Fixpoint ti_descend (t : tr) (ptrs : list tr) (iters : list oiter) (key : list K) {struct t} : titer :=
  match t with
  | Node d ch =>
      match ch with
      | [] => ItAt ptrs ([] :: iters) key d
      | (k, c) :: r => ti_descend c (c :: ptrs) (((k, c) :: r) :: iters) (key ++ [k])
      end
  end.

(** const_iterator(trieptr) :86-104 as called by begin() :367-373; note that the root's first child iterator is pushed twice
    when the root has children *)
Definition ti_begin (t : tr) : titer := ti_descend t [t] [tch t] [].

(** the last block of operator++ :412-428: if the back iterator is not at its end, go down that child *)
Definition ti_down (ptrs : list tr) (iters : list oiter) (key : list K) (dat : D) : option titer :=
  match ptrs, iters with
  | _ :: _, i :: _ =>
      match i with
      | [] => Some (ItAt ptrs iters key dat)
      | (k, c) :: _ => Some (ti_descend c (c :: ptrs) iters (key ++ [k]))
      end
  | _, _ => None
  end.
(** operator++ :386-430.  None: back() of an empty vector. *)
Definition ti_next (s : titer) : option titer :=
  match s with
  | ItEnd => Some ItEnd
  | ItAt (p :: ps) (i :: is) key dat =>
      match oi_incr i with
      | [] =>
          let key' := removelast key in                        (* :398, guarded by size()>0 *)
          match ps with
          | [] => Some ItEnd
          | p1 :: _ => match is with
                       | i1 :: is' => ti_down ps (oi_incr i1 :: is') key' (tdata p1)
                       | [] => None
                       end
          end
      | i' => ti_down (p :: ps) (i' :: is) key dat
      end
  | ItAt _ _ _ _ => None
  end.

(** for(it=begin();it!=end();++it) visit it: the visited pairs, in order.  None: fuel exhausted or undefined behaviour. *)
Fixpoint ti_run (fuel : nat) (s : titer) : option (list (list K * D)) :=
  match fuel with
  | O => None
  | S f => match s with
           | ItEnd => Some []
           | ItAt _ _ key dat => match ti_next s with
                                 | None => None
                                 | Some s' => match ti_run f s' with None => None | Some l => Some ((key, dat) :: l) end
                                 end
           end
  end.
(** a complete traversal; the number of iterations is bounded by size() (proved sufficient) *)
Definition trie_entries (t : tr) : option (list (list K * D)) := ti_run (S (trie_size t)) (ti_begin t).
End ITER.
