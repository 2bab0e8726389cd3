(** Containers of word alignments. *)
From Coq Require Import Ascii String Arith ZArith NArith QArith List Bool.
From Verif Require Import TextSpec AligSpec WgfSpec GizaSpec.
Import ListNotations.
Local Open Scope nat_scope.
(** the sentence pair of an entry *)
Definition pair_of (e : entry) : list str * list str := (e_ns e, e_t e).
Definition strs_eq : forall a b : list str, {a = b} + {a <> b} := list_eq_dec (list_eq_dec ascii_dec).
Definition pair_eq : forall a b : list str * list str, {a = b} + {a <> b}.
Proof. intros [a b] [c d]. destruct (strs_eq a c) as [->|N]; [|right; congruence]. destruct (strs_eq b d) as [->|N]; [now left|right; congruence]. Defined.
Definition same_pair (p : list str * list str) (e : entry) : bool := if pair_eq p (pair_of e) then true else false.
(** how often a sentence pair occurs *)
Definition occurrences (p : list str * list str) (es : list entry) : nat := length (filter (same_pair p) es).
(** an entry that can be stored and written again: with [tr], source and target are exchanged *)
Definition storable (tr : bool) (e : entry) : Prop := wf_entry e /\ (tr = true -> ~ In (T "({") (e_t e) /\ small (length (e_ns e))).
(** one operation after the other *)
Inductive chain : wam -> list (aop * wam) -> wam -> Prop :=
| chain_nil : forall m r, wsame m r -> chain m [] r
| chain_cons : forall o w l m m1 r, op_spec o m w m1 -> chain m1 l r -> chain m ((o, w) :: l) r.
(** the operands for a sentence pair: all the entries of that pair in each file, in order *)
Definition operands (p : list str * list str) (ops : list (aop * list entry)) : list (aop * wam) :=
  flat_map (fun q => map (fun e => (fst q, e_al e)) (filter (same_pair p) (snd q))) ops.
(** the alignment kept for a sentence pair: the one of its first entry, then every operation in order *)
Definition kept (es : list entry) (ops : list (aop * list entry)) (p : list str * list str) (r : wam) : Prop :=
  exists l1 e l2, es = l1 ++ e :: l2 /\ pair_of e = p /\ ~ In p (map pair_of l1) /\ chain (e_al e) (operands p ops) r.
(** calls on a container: the operation, the transposition flag and the contents of the file *)
Definition ccall := (aop * bool * str)%type.
