(** IBM model 1 (Brown et al. 1993): a target sentence t of length m is generated from a source sentence s of length l extended with the
    NULL word at position 0, through an alignment a in {0..l}^m chosen uniformly. *)
From Coq Require Import Reals NArith List.
From Verif Require Import RSums.
Import ListNotations.
Open Scope R_scope.
Section SPEC.
Variable p : N -> N -> R.            (* p s t: probability of target word t given source word s *)
(** probability of the target words given the alignment *)
Definition lex_prob (ns t : list N) (a : list nat) : R := prodf (fun x => p (nth (fst x) ns 0%N) (snd x)) (combine a t).
(** joint probability of alignment and target words (without the length model) *)
Definition joint (ns t : list N) (a : list nat) : R := / INR (length ns) ^ length t * lex_prob ns t a.
Definition alignments (l m : nat) : list (list nat) := seqs (seq 0 (S l)) m.
(** total probability: sum over all alignments *)
Definition total (ns t : list N) : R := sumf (joint ns t) (alignments (pred (length ns)) (length t)).
(** posterior probability that target position j (from 0) is aligned with source position i *)
Definition posterior (ns t : list N) (j i : nat) : R :=
  sumf (joint ns t) (filter (fun a => Nat.eqb (nth j a 0%nat) i) (alignments (pred (length ns)) (length t))) / total ns t.
End SPEC.
(** Training data: sentence pairs with weights.  Position-wise expected counts of a word pair. *)
Record pair := { weight : R; src : list N; trg : list N }.
Definition with_null (s : list N) : list N := 0%N :: s.
Definition positions (ns t : list N) : list (nat * nat) := flat_map (fun j => map (fun i => (j, i)) (seq 0 (length ns))) (seq 0 (length t)).
(** positions (j,i) of a pair where target word is t and source word is s *)
Definition occ (ns ts : list N) (s t : N) : list (nat * nat) :=
  filter (fun q => (N.eqb (nth (snd q) ns 0%N) s && N.eqb (nth (fst q) ts 0%N) t)%bool) (positions ns ts).
(** contribution of one pair, whose expected alignment values are m (row: target position, column: source position), to the count of (s,t);
    the program never counts less than 1e-6 *)
Definition at_least_1e6 (x : R) : R := Rmax x (/ 1000000).
Definition pair_count (p : pair) (m : list (list R)) (s t : N) : R :=
  sumf (fun q => at_least_1e6 (weight p * nth (snd q) (nth (fst q) m []) 0)) (occ (with_null (src p)) (trg p) s t).
(** a sentence pair that takes part in training *)
Definition usable (p : pair) : Prop := (1 <= length (src p) <= 1024)%nat /\ (1 <= length (trg p) <= 1024)%nat.
Definition no_pair : pair := {| weight := 0; src := []; trg := [] |}.
(** expected count of the word pair (s,t) in the corpus D, given the expected alignment values ex n of each sentence pair n (None: not trained) *)
Definition counts (D : list pair) (ex : nat -> option (list (list R))) (s t : N) : R :=
  sumf (fun n => match ex n with Some m => pair_count (nth n D no_pair) m s t | None => 0 end) (seq 0 (length D)).
(** the pairs of a corpus whose number lies in range and that take part in training; expectation matrix m n for each of them *)
Definition training_set (D : list pair) (range : list nat) : list nat :=
  filter (fun n => (1 <=? length (src (nth n D no_pair))) && (length (src (nth n D no_pair)) <=? 1024) && (1 <=? length (trg (nth n D no_pair))) && (length (trg (nth n D no_pair)) <=? 1024))%nat%bool range.
(** none of the thresholds of the program is active on the sentence pairs ps under the translation probabilities p *)
Definition thresholds_inactive (p : N -> N -> R) (ps : list pair) : Prop :=
  forall q x w, In q ps -> In x (with_null (src q)) -> In w (trg q) ->
    / 1000000 <= p x w /\ / 1000000 <= weight q * (p x w / sumf (fun y => p y w) (with_null (src q))).
(** ---- Expectation step as the manual describes it: each target word is distributed over the source words (and NULL) in proportion to their
    translation probabilities q; probabilities below 1e-6 count as 1e-6, pairs never seen (probability 0) count as 0.1. *)
Definition raw_share (q : N -> N -> R) (s t : N) : R := Rmax (if Rlt_dec 0 (q s t) then q s t else 1 / 10) (/ 1000000).
Definition estep (q : N -> N -> R) (p : pair) : list (list R) :=
  map (fun t => map (fun s => raw_share q s t / sumf (fun s' => raw_share q s' t) (with_null (src p))) (with_null (src p))) (trg p).
(** Maximisation step: relative frequencies of the expected counts *)
Definition vocab (D : list pair) : list N := nodup N.eq_dec (flat_map trg D).
Definition rel_freq (D : list pair) (c : N -> N -> R) (s t : N) : R := c s t / sumf (c s) (vocab D).
(** Incremental EM: the corpus and, for every sentence pair trained so far, its latest expectations *)
Definition iem : Type := (list pair * (nat -> option (list (list R))))%type.
Definition iem_prob (x : iem) : N -> N -> R := rel_freq (fst x) (counts (fst x) (snd x)).
Definition iem_train (range : list nat) (x : iem) : iem :=
  (fst x, fun n => if in_dec Nat.eq_dec n (training_set (fst x) range) then Some (estep (iem_prob x) (nth n (fst x) no_pair)) else snd x n).
Inductive em_op := AddPair (p : pair) | Train (b e : nat).
Definition range_of (b e : nat) : list nat := seq b (S e - b).
Definition iem_op (x : iem) (o : em_op) : iem :=
  match o with AddPair p => (fst x ++ [p], snd x) | Train b e => iem_train (range_of b e) x end.
Definition iem_new : iem := ([], fun _ => None).
(** the operations a caller may perform: positive weights, ranges inside the corpus *)
Fixpoint legal (len : nat) (ops : list em_op) : Prop :=
  match ops with
  | [] => True
  | AddPair p :: r => 0 < weight p /\ legal (S len) r
  | Train b e :: r => (e < len)%nat /\ legal len r
  end.
