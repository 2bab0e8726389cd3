(** String-level view of a phrase model: what its counts should be after a history of calls, and what a training corpus contributes. *)
From Coq Require Import Ascii String Arith ZArith NArith List Bool.
From Verif Require Import TextSpec VocabSpec AligSpec ExtrSpec.
Import ListNotations.
Open Scope Z_scope.

Definition sphrase := list str.
Definition sphrase_dec : forall a b : sphrase, {a = b} + {a <> b} := list_eq_dec str_dec.
(** calls made with words: strIncrCountsOfEntry(s,t,c) and strAddTableEntry(s,t,(cs,cst)) *)
Inductive sop := SIncr (s t : sphrase) (c : Z) | SAdd (s t : sphrase) (cs cst : Z).
Definition sop_s (o : sop) : sphrase := match o with SIncr s _ _ => s | SAdd s _ _ _ => s end.
Definition sop_t (o : sop) : sphrase := match o with SIncr _ t _ => t | SAdd _ t _ _ => t end.
(** the counts c(s), c(t), c(s,t) *)
Record scounts := { k_s : sphrase -> Z; k_t : sphrase -> Z; k_st : sphrase -> sphrase -> Z }.
Definition scounts0 : scounts := {| k_s := fun _ => 0; k_t := fun _ => 0; k_st := fun _ _ => 0 |}.
Definition sset (f : sphrase -> Z) (k : sphrase) (v : Z) : sphrase -> Z := fun x => if sphrase_dec x k then v else f x.
Definition sset2 (f : sphrase -> sphrase -> Z) (k l : sphrase) (v : Z) : sphrase -> sphrase -> Z :=
  fun x y => if sphrase_dec x k then if sphrase_dec y l then v else f x y else f x y.
Definition sop_effect (k : scounts) (o : sop) : scounts :=
  match o with
  | SIncr s t c => {| k_s := sset (k_s k) s (k_s k s + c); k_t := sset (k_t k) t (k_t k t + c); k_st := sset2 (k_st k) s t (k_st k s t + c) |}
  | SAdd s t cs cst => {| k_s := sset (k_s k) s cs; k_t := sset (k_t k) t (k_t k t + cst); k_st := sset2 (k_st k) s t cst |}
  end.
Definition scounts_after (h : list sop) : scounts := fold_left sop_effect h scounts0.
(** words usable with the byte-key table *)
Definition usable (p : sphrase) : Prop := ~ In (T "<UNUSED_WORD>") p.
Definition usable_op (o : sop) : Prop := usable (sop_s o) /\ usable (sop_t o) /\ sop_t o <> [].

(** the words of a history, and few enough of them for the table's 3-digit base-254 word codes *)
Definition s_words (h : list sop) : list str := flat_map sop_s h.
Definition t_words (h : list sop) : list str := flat_map sop_t h.
Definition fits_index (h : list sop) : Prop :=
  (N.of_nat (length (names_after (s_words h))) <= 254 ^ 3)%N /\ (N.of_nat (length (names_after (t_words h))) <= 254 ^ 3)%N.

(** a training item: alignment, source sentence, target sentence, number of repetitions *)
Record titem := mkitem { it_A : wam; it_s : sphrase; it_t : sphrase; it_reps : Z }.
(** same number of each of the three category tags in both phrases *)
Definition occurrences (w : str) (p : sphrase) : nat := count_occ str_dec p w.
Definition categories : list str := [T "<digit>"; T "<number>"; T "<alfanum>"].
Definition same_categories (s t : sphrase) : Prop := forall c, In c categories -> occurrences c s = occurrences c t.
(** every link has value 1 *)
Definition zero_one (A : wam) : Prop := forall i j, wc A i j = 0%N \/ wc A i j = 1%N.
Definition short_enough (i : titem) : Prop := (length (it_s i) < MAX_SENTENCE_LENGTH /\ length (it_t i) < MAX_SENTENCE_LENGTH)%nat.
Definition good_item (i : titem) : Prop :=
  wI (it_A i) = length (it_s i) /\ wJ (it_A i) = length (it_t i) /\ zero_one (it_A i) /\ it_s i <> [] /\ usable (it_s i) /\ usable (it_t i).
Definition corpus_fits (items : list titem) : Prop :=
  (N.of_nat (length (names_after (flat_map it_s items))) <= 254 ^ 3)%N /\ (N.of_nat (length (names_after (flat_map it_t items))) <= 254 ^ 3)%N.
(** the phrase pair of a span pair *)
Definition span_s (i : titem) (q : nat * nat * nat * nat) : sphrase := let '(i1, i2, _, _) := q in ExtrSpec.words (it_s i) i1 i2.
Definition span_t (i : titem) (q : nat * nat * nat * nat) : sphrase := let '(_, _, j1, j2) := q in ExtrSpec.words (it_t i) j1 j2.
(** L: the span pairs an item contributes.  Nothing for sentences of more than 100 words *)
Definition item_spans (P : epars) (i : titem) (L : list (nat * nat * nat * nat)) : Prop :=
  (short_enough i -> NoDup L /\ (forall q, In q L -> admissible (it_A i) P q /\ same_categories (span_s i q) (span_t i q)) /\
     forall i1 i2 j1 j2, must_extract (it_A i) P (length (it_s i)) (length (it_t i)) i1 i2 j1 j2 ->
       same_categories (span_s i (i1, i2, j1, j2)) (span_t i (i1, i2, j1, j2)) -> In (i1, i2, j1, j2) L) /\
  (~ short_enough i -> L = []).
(** how many of the span pairs L of the item satisfy f *)
Definition how_many (f : nat * nat * nat * nat -> bool) (L : list (nat * nat * nat * nat)) : Z := Z.of_nat (length (filter f L)).
Definition is_phrase (p p' : sphrase) : bool := if sphrase_dec p p' then true else false.
(** sum of f over a list *)
Definition sumof {A} (f : A -> Z) (l : list A) : Z := fold_right Z.add 0 (map f l).
(** a line of the table file: source phrase, target phrase, c(s), c(s,t) *)
Record tline := mkline { l_s : sphrase; l_t : sphrase; l_cs : Z; l_cst : Z }.
(** words that can stand in a table file: no blank, newline or NUL, and not the separator *)
Definition file_word (w : str) : Prop :=
  w <> [] /\ ~ In (ascii_of_nat 32) w /\ ~ In (ascii_of_nat 10) w /\ ~ In (ascii_of_nat 0) w /\ w <> T "|||".
Definition file_line (l : tline) : Prop := Forall file_word (l_s l) /\ Forall file_word (l_t l) /\ l_s l <> [] /\ l_t l <> [].
(** a training history: phrase pairs with positive counts *)
Definition trained (h : list sop) : Prop := Forall (fun o => match o with SIncr _ _ c => 0 < c | SAdd _ _ _ _ => False end) h.
