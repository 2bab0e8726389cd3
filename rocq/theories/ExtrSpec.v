(** Specification vocabulary for phrase extraction: positions are 1-based in both sentences. *)
From Coq Require Import NArith Arith List.
From Verif Require Import AligSpec.
Import ListNotations.
(** source word i and target word j are linked *)
Definition linked (A : wam) (i j : nat) : Prop := 1 <= i /\ 1 <= j /\ link A (i - 1) (j - 1).
(** the pair of spans (i1..i2, j1..j2) is consistent with the alignment: both spans are inside the sentences, there is a link
    between them, and no link leaves the pair *)
Definition consistent (A : wam) (i1 i2 j1 j2 : nat) : Prop :=
  1 <= i1 <= i2 /\ i2 <= wI A /\ 1 <= j1 <= j2 /\ j2 <= wJ A /\
  (exists i j, linked A i j /\ i1 <= i <= i2 /\ j1 <= j <= j2) /\
  (forall i j, linked A i j -> (i1 <= i <= i2 <-> j1 <= j <= j2)).
(** links before the source span go before the target span, links after it after it *)
Definition monotone_at (A : wam) (i1 i2 j1 j2 : nat) : Prop :=
  forall i j, linked A i j -> (i < i1 -> j < j1) /\ (i2 < i -> j2 < j).
(** the words a..b of a sentence *)
Definition words {W} (l : list W) (a b : nat) : list W := firstn (S b - a) (skipn (a - 1) l).
(** target word j has a link *)
Definition trg_linked (A : wam) (j : nat) : Prop := exists i, linked A i j.
Definition src_linked (A : wam) (i : nat) : Prop := exists j, linked A i j.
(** [n] is the number of linked words in j1..j2 *)
Definition linked_words (A : wam) (j1 j2 n : nat) : Prop :=
  exists L, NoDup L /\ length L = n /\ forall j, In j L <-> (j1 <= j <= j2 /\ trg_linked A j).
(** a phrase pair: its words, the sum of the alignment values inside it and the number of links inside it (the code stores
    their quotient as weight) *)
Record ppair (W : Type) := mkpp { pp_s : list W; pp_t : list W; pp_sum : N; pp_num : nat }.
Arguments mkpp {W}. Arguments pp_s {W}. Arguments pp_t {W}. Arguments pp_sum {W}. Arguments pp_num {W}.
(** parameters of the extraction *)
Record epars := mkpars { e_mono : bool; e_max : nat; e_srclen : bool; e_spur : bool }.
Definition MAX_SENTENCE_LENGTH : nat := 101.     (* PhraseDefs.h:46 *)
(** [n] is the number of links between the spans and [v] the sum of their alignment values *)
Definition links_inside (A : wam) (i1 i2 j1 j2 : nat) (v : N) (n : nat) : Prop :=
  exists L : list (nat * nat), NoDup L /\ length L = n /\
    (forall i j, In (i, j) L <-> linked A i j /\ i1 <= i <= i2 /\ j1 <= j <= j2) /\
    v = fold_right N.add 0%N (map (fun ij => wc A (fst ij - 1) (snd ij - 1)) L).
(** no two neighbouring unlinked target words between linked words of the span *)
Definition no_wide_gap (A : wam) (j1 j2 : nat) : Prop :=
  ~ exists a j b, j1 <= a < j /\ j + 1 < b <= j2 /\ trg_linked A a /\ trg_linked A b /\ ~ trg_linked A j /\ ~ trg_linked A (j + 1).
(** the span pair must be extracted: consistent, outer source words linked, within the limits, the whole target only with the whole source *)
Definition must_extract (A : wam) (P : epars) (I J i1 i2 j1 j2 : nat) : Prop :=
  consistent A i1 i2 j1 j2 /\ src_linked A i1 /\ src_linked A i2 /\
  (e_mono P = true -> monotone_at A i1 i2 j1 j2) /\ (e_srclen P = true -> S i2 - i1 <= e_max P) /\ (e_spur P = true -> S j2 - j1 <= e_max P) /\
  (e_spur P = false -> exists n, linked_words A j1 j2 n /\ n <= e_max P) /\
  (j1 = 1 -> j2 = J -> i1 = 1 /\ i2 = I).
(** the span pair q is consistent and within the limits *)
Definition admissible (A : wam) (P : epars) (q : nat * nat * nat * nat) : Prop :=
  let '(i1, i2, j1, j2) := q in consistent A i1 i2 j1 j2 /\
  (e_mono P = true -> monotone_at A i1 i2 j1 j2) /\ (e_srclen P = true -> S i2 - i1 <= e_max P) /\ (e_spur P = true -> S j2 - j1 <= e_max P) /\
  (e_spur P = false -> exists n, linked_words A j1 j2 n /\ n <= e_max P).
