(** src/nlp_common/OrderedVector.h, TrieVecs.h, NbestTableNode.h.
    A vector of pairs is the list of its elements; [None] is an out-of-bounds access or a loop that does not end. *)
From Coq Require Import Arith ZArith List Bool.
From Verif Require Import ContainerSpec.
Import ListNotations.

Section OV.
Context {K D : Type}.
Variable ltb : K -> K -> bool.   (* KEY_ORDER_REL *)

(** the while loop of findIndex and the code after it: OrderedVector.h:356-384.
    (left+right)/2 does not overflow: sizes are far below SIZE_MAX/2. *)
Fixpoint fi_loop (fuel : nat) (v : list (K * D)) (k : K) (l r : nat) : option (bool * nat) :=
  match fuel with
  | O => None
  | S f =>
    if l <? r then
      let mid := (l + r) / 2 in
      match nth_error v mid with
      | None => None
      | Some (km, _) => if ltb k km then fi_loop f v k l mid
                        else if ltb km k then fi_loop f v k (mid + 1) r
                        else Some (true, mid)
      end
    else if l =? length v then Some (false, l)
    else match nth_error v l with
         | None => None
         | Some (kl, _) => if ltb k kl then Some (false, l) else Some (false, l + 1)
         end
  end.

(** findIndex: OrderedVector.h:351-391 *)
Definition findIndex (v : list (K * D)) (k : K) : option (bool * nat) :=
  match v with [] => Some (false, 0) | _ => fi_loop (S (length v)) v k 0 (length v) end.

Fixpoint set_second (i : nat) (d : D) (v : list (K * D)) : list (K * D) :=
  match v, i with
  | [], _ => []
  | (k, _) :: r, O => (k, d) :: r
  | p :: r, S i' => p :: set_second i' d r
  end.

(** push (= insert): OrderedVector.h:238-282; alloc+memmove+placement new = insertion at [index] *)
Definition ov_push (v : list (K * D)) (k : K) (d : D) : option (list (K * D)) :=
  match v with
  | [] => Some [(k, d)]
  | _ => match findIndex v k with
         | None => None
         | Some (true, i) => Some (set_second i d v)
         | Some (false, i) => Some (firstn i v ++ (k, d) :: skipn i v)
         end
  end.

(** findPtr: OrderedVector.h:302-312; [Some None] is the NULL result *)
Definition ov_findPtr (v : list (K * D)) (k : K) : option (option D) :=
  match findIndex v k with
  | None => None
  | Some (false, _) => Some None
  | Some (true, i) => match nth_error v i with None => None | Some (_, d) => Some (Some d) end
  end.

(** operator[]: OrderedVector.h:333-347; [dflt] is the value of a default-constructed DATA *)
Definition ov_index (dflt : D) (v : list (K * D)) (k : K) : option (list (K * D)) :=
  match findIndex v k with
  | None => None
  | Some (true, _) => Some v
  | Some (false, _) => ov_push v k dflt
  end.

(** pop: OrderedVector.h:285-291; top: :295-298; clear: :407-410 *)
Definition ov_pop (v : list (K * D)) : list (K * D) := removelast v.
Definition ov_top (v : list (K * D)) : option (K * D) := nth_error v (length v - 1).

Definition ov_step (dflt : D) (v : list (K * D)) (o : ov_op K D) : option (list (K * D)) :=
  match o with
  | OvPush k d => ov_push v k d
  | OvIndex k => ov_index dflt v k
  | OvPop => Some (ov_pop v)
  | OvClear => Some []
  end.
Fixpoint ov_run (dflt : D) (v : list (K * D)) (h : list (ov_op K D)) : option (list (K * D)) :=
  match h with
  | [] => Some v
  | o :: h' => match ov_step dflt v o with None => None | Some v' => ov_run dflt v' h' end
  end.
End OV.

(** TrieVecs.h:45-118: a node has data and an OrderedVector of children *)
Inductive trie (K D : Type) : Type := Node (d : D) (ch : list (K * trie K D)).
Arguments Node {K D}.

Section TRIE.
Context {K D : Type}.
Variable ltb : K -> K -> bool.
Variable dflt : D.               (* DATA_TYPE's default value *)

Definition tdata (t : trie K D) : D := match t with Node d _ => d end.
Definition tch (t : trie K D) : list (K * trie K D) := match t with Node _ c => c end.
Definition tempty : trie K D := Node dflt [].

(** the loop of insert, TrieVecs.h:151-167.  The C++ walks down by pointer; here the changed child is stored back
    with push, which for a present key overwrites the child in place. *)
Fixpoint trie_ins (ks : list K) (d : D) (t : trie K D) : option (trie K D) :=
  match ks with
  | [] => Some (Node d (tch t))
  | k :: ks' =>
      match ov_findPtr ltb (tch t) k with
      | None => None
      | Some pos =>
          let c := match pos with None => tempty | Some c => c end in
          match trie_ins ks' d c with
          | None => None
          | Some c' => match ov_push ltb (tch t) k c' with None => None | Some ch' => Some (Node (tdata t) ch') end
          end
      end
  end.
(** insert: TrieVecs.h:138-169; empty key sequences are ignored *)
Definition trie_insert (ks : list K) (d : D) (t : trie K D) : option (trie K D) :=
  match ks with [] => Some t | _ => trie_ins ks d t end.

(** find: TrieVecs.h:173-196; [Some None] is NULL *)
Fixpoint trie_walk (ks : list K) (t : trie K D) : option (option D) :=
  match ks with
  | [] => Some (Some (tdata t))
  | k :: ks' => match ov_findPtr ltb (tch t) k with
                | None => None
                | Some None => Some None
                | Some (Some c) => trie_walk ks' c
                end
  end.
Definition trie_find (ks : list K) (t : trie K D) : option (option D) :=
  match ks with [] => Some None | _ => trie_walk ks t end.

(** size: TrieVecs.h:200-218 *)
Fixpoint trie_size (t : trie K D) : nat :=
  match t with
  | Node _ ch => S ((fix sum (l : list (K * trie K D)) : nat :=
                       match l with [] => 0 | (_, c) :: r => trie_size c + sum r end) ch)
  end.

(** height(i,r): TrieVecs.h:230-240, and height(): :222-227 *)
Fixpoint trie_height_aux (t : trie K D) (i r : nat) : nat :=
  match t with
  | Node _ ch =>
      (fix loop (l : list (K * trie K D)) (r : nat) : nat :=
         match l with [] => r | (_, c) :: l' => loop l' (trie_height_aux c (i + 1) r) end) ch (if r <? i then i else r)
  end.
Definition trie_height (t : trie K D) : nat := trie_height_aux t 0 0.

Fixpoint trie_run (t : trie K D) (h : list (list K * D)) : option (trie K D) :=
  match h with
  | [] => Some t
  | (k, d) :: h' => match trie_insert k d t with None => None | Some t' => trie_run t' h' end
  end.
End TRIE.

(** NbestTableNode.h: a multimap ordered by greaterScore.  Scores are only compared, so they are integers here
    (any set of NaN-free doubles embeds into Z preserving <).  std::multimap::insert puts an element after its equals. *)
Section NBT.
Context {D : Type}.
(** insert: NbestTableNode.h:101-115 *)
Fixpoint nb_insert (s : Z) (d : D) (l : list (Z * D)) : list (Z * D) :=
  match l with
  | [] => [(s, d)]
  | (s', d') :: r => if (s' <? s)%Z then (s, d) :: l else (s', d') :: nb_insert s d r
  end.
(** getBestElem, getScoreOfBestElem: :117-139 (best element first) *)
Definition nb_best (l : list (Z * D)) : option (Z * D) := hd_error l.
(** removeLastElement: :142-149; undefined on an empty node *)
Definition nb_removeLast (l : list (Z * D)) : option (list (Z * D)) := match l with [] => None | _ => Some (removelast l) end.
(** pruneGivenThreshold: :153-169, from the last element backwards.  [rev_prune] works on the reversed listing.
    The final [tableNodeIter--] at begin() when everything is erased is formally undefined; the iterator is not used again. *)
Fixpoint rev_prune (th : Z) (l : list (Z * D)) : list (Z * D) :=
  match l with [] => [] | p :: r => if (fst p <? th)%Z then rev_prune th r else l end.
Definition nb_prune (th : Z) (l : list (Z * D)) : list (Z * D) := rev (rev_prune th (rev l)).

Inductive nb_op := NbInsert (s : Z) (d : D) | NbPrune (th : Z) | NbRemoveLast | NbClear.
Definition nb_step (l : list (Z * D)) (o : nb_op) : option (list (Z * D)) :=
  match o with
  | NbInsert s d => Some (nb_insert s d l)
  | NbPrune th => Some (nb_prune th l)
  | NbRemoveLast => nb_removeLast l
  | NbClear => Some []
  end.
Fixpoint nb_run (l : list (Z * D)) (h : list nb_op) : option (list (Z * D)) :=
  match h with [] => Some l | o :: h' => match nb_step l o with None => None | Some l' => nb_run l' h' end end.
End NBT.
