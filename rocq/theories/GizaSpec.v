(** Alignment files: what an entry is and what must be kept. *)
From Coq Require Import Ascii String Arith ZArith NArith QArith List Bool.
From Verif Require Import TextSpec AligSpec WgfSpec.
Import ListNotations.
(** a sentence pair with its word alignment: [e_ns] is the source sentence with the NULL word in front *)
Record entry := mkent { e_ns : list str; e_t : list str; e_al : wam; e_reps : Q }.
(** an entry a user can have: words without blanks, no source word written "({", one row per source word, one column per target word, unsigned counts *)
Definition wf_entry (e : entry) : Prop :=
  e_ns e <> [] /\ Forall plain (e_ns e) /\ ~ In (T "({") (e_ns e) /\ Forall plain (e_t e) /\
  S (wI (e_al e)) = length (e_ns e) /\ wJ (e_al e) = length (e_t e) /\ small (length (e_t e)) /\
  forall i j, inr (e_al e) i j -> (wc (e_al e) i j < 2 ^ 32)%N.
(** the same sentences and the same alignment; the number of repetitions as printed *)
Definition same_entry (a b : entry) : Prop :=
  e_ns b = e_ns a /\ e_t b = e_t a /\ wsame (e_al a) (e_al b) /\ as_printed (e_reps a) (e_reps b).
(** the operations offered on two alignment files *)
Inductive aop := Join | Intersect | Sum | Symmetr1 | Symmetr2 | GrowDiagFinal.
(** what the operation must do with two alignments of the same sentence pair *)
Definition between (m w r : wam) : Prop := (forall i j, link m i j /\ link w i j -> link r i j) /\ (forall i j, link r i j -> link m i j \/ link w i j).
Definition op_spec (o : aop) (m w r : wam) : Prop :=
  same_dims r m /\
  match o with
  | Join => forall i j, link r i j <-> link m i j \/ link w i j
  | Intersect => forall i j, link r i j <-> link m i j /\ link w i j
  | Sum => forall i j, inr m i j -> wc r i j = ((wc m i j + wc w i j) mod 2 ^ 32)%N
  | Symmetr1 => between m w r /\ (forall i j, (link m i j \/ link w i j) -> ~ link r i j -> (row_aligned r i \/ col_aligned r j) /\ ~ horiz r i j /\ ~ vert r i j)
  | Symmetr2 => between m w r /\ (forall i j, (link m i j \/ link w i j) -> ~ link r i j -> (row_aligned r i \/ col_aligned r j) /\
                                   ((~ horiz r i j /\ ~ vert r i j) \/ (horiz r i j /\ vert r i j)))
  | GrowDiagFinal => between m w r /\ (forall i j, (link m i j \/ link w i j) -> row_aligned r i /\ col_aligned r j)
  end.
(** the alignment [w'] is [w] seen from the other side *)
Definition turned (w w' : wam) : Prop := wI w' = wJ w /\ wJ w' = wI w /\ forall i j, inr w i j -> wc w' j i = wc w i j.
(** entry b read with source and target exchanged when [tr] *)
Definition seen (tr : bool) (b b' : entry) : Prop :=
  if tr then exists n s, e_ns b = n :: s /\ e_ns b' = n :: e_t b /\ e_t b' = s /\ turned (e_al b) (e_al b') else b' = b.
(** entry [c] is what must be written for the entries [a] of the first file and [b] of the second *)
Definition combined (o : aop) (tr : bool) (a b c : entry) : Prop :=
  e_ns c = e_ns a /\ e_t c = e_t a /\ e_reps c = e_reps a /\
  exists b', seen tr b b' /\
    (e_ns b' = e_ns a /\ e_t b' = e_t a -> op_spec o (e_al a) (e_al b') (e_al c)) /\
    (~ (e_ns b' = e_ns a /\ e_t b' = e_t a) -> wsame (e_al a) (e_al c)).
(** the entries of two lists combined one by one, up to the end of the shorter *)
Inductive zipped (R : entry -> entry -> entry -> Prop) : list entry -> list entry -> list entry -> Prop :=
| zip_l : forall l, zipped R [] l []
| zip_r : forall l, zipped R l [] []
| zip_c : forall a b c la lb lc, R a b c -> zipped R la lb lc -> zipped R (a :: la) (b :: lb) (c :: lc).
(** an entry of the second format *)
Definition my_entry (e : entry) (reps : nat) : Prop :=
  e_ns e <> [] /\ Forall plain (e_ns e) /\ Forall plain (e_t e) /\ S (wI (e_al e)) = length (e_ns e) /\ wJ (e_al e) = length (e_t e) /\
  (forall i j, inr (e_al e) i j -> small (N.to_nat (wc (e_al e) i j))).
Definition same_my (p : entry * nat) (b : entry) : Prop :=
  e_ns b = e_ns (fst p) /\ e_t b = e_t (fst p) /\ wsame (e_al (fst p)) (e_al b) /\ (e_reps b == inject_Z (Z.of_nat (snd p)))%Q.
