(** C37, C56: BLEU.  Vocabulary: BleuSpec.v; code: BleuModel.v, BleuRealModel.v. *)
From Coq Require Import List Arith Bool Reals.
From Verif Require Import BleuSpec BleuModel BleuRealModel.
From Verif Require BleuProofs BleuRealProofs.
Import ListNotations.
Open Scope nat_scope.

(** C37: prec_n never reads out of range and reports the size of the multiset intersection and the number of system n-grams. *)
Theorem C37_prec_n : forall A (eqd : forall x y : A, {x = y} + {x <> y}) ref sys n,
  prec_n eqd ref sys n = Some (common eqd (ngrams n sys) (ngrams n ref), length (ngrams n sys)).
Proof. exact BleuProofs.prec_spec. Qed.
Print Assumptions C37_prec_n.
(** the number of n-grams of a sentence, and which ones they are *)
Theorem C37_ngrams : forall A n (s : list A), length (ngrams n s) = length s + 1 - n /\
  forall i, i + n <= length s -> nth_error (ngrams n s) i = Some (firstn n (skipn i s)).
Proof. intros A n s. exact (conj (BleuProofs.ngrams_length A n s) (BleuProofs.ngrams_nth A n s)). Qed.
Print Assumptions C37_ngrams.
(** matches never exceed the total, are symmetric, and equal the total for identical sentences *)
Theorem C37_at_most_total : forall A (eqd : forall x y : A, {x = y} + {x <> y}) ref sys n p t, prec_n eqd ref sys n = Some (p, t) -> p <= t.
Proof. intros A eqd ref sys n p t. rewrite BleuProofs.prec_spec. intro H. inversion H. apply BleuProofs.common_le. Qed.
Print Assumptions C37_at_most_total.
Theorem C37_symmetric : forall A (eqd : forall x y : A, {x = y} + {x <> y}) s1 s2 n, option_map fst (prec_n eqd s1 s2 n) = option_map fst (prec_n eqd s2 s1 n).
Proof. intros. rewrite !BleuProofs.prec_spec. simpl. f_equal. apply BleuProofs.common_sym. Qed.
Print Assumptions C37_symmetric.
Theorem C37_identical : forall A (eqd : forall x y : A, {x = y} + {x <> y}) s n, prec_n eqd s s n = Some (length (ngrams n s), length (ngrams n s)).
Proof. intros. rewrite BleuProofs.prec_spec, BleuProofs.common_self. reflexivity. Qed.
Print Assumptions C37_identical.
(** over a corpus the counts are the sums over the sentence pairs; a system file that is too short is an error; surplus system
    sentences are silently ignored *)
Theorem C37_corpus : forall A (eqd : forall x y : A, {x = y} + {x <> y}) refs syss, length refs <= length syss ->
  exists c, corpus eqd refs syss = Some c /\
    let P := combine refs syss in
    refWords c = sum (map (@length A) refs) /\ sysWords c = sum (map (fun e => length (snd e)) P) /\
    forall n, 1 <= n <= 4 -> nth_error (acc c) (n - 1) = Some (sum (map (fun e => common eqd (ngrams n (snd e)) (ngrams n (fst e))) P), sum (map (fun e => length (ngrams n (snd e))) P)).
Proof. exact BleuProofs.corpus_spec. Qed.
Print Assumptions C37_corpus.
Theorem C37_short_system_file : forall A (eqd : forall x y : A, {x = y} + {x <> y}) refs syss, length syss < length refs -> corpus eqd refs syss = None.
Proof. exact BleuProofs.corpus_short. Qed.
Print Assumptions C37_short_system_file.
Example C37_nonvacuous :
  prec_n Nat.eq_dec [1;2;3;1;2] [1;2;1;2;1;2] 2 = Some (2, 5) /\ ngrams 2 [1;2;1;2;1;2] = [[1;2];[2;1];[1;2];[2;1];[1;2]] /\
  common Nat.eq_dec (ngrams 2 [1;2;1;2;1;2]) (ngrams 2 [1;2;3;1;2]) = 2 /\ prec_n Nat.eq_dec [1;1] [1] 1 = Some (1, 1).
Proof. repeat split. Qed.

(** C56: the score lies in (0,1] whenever the output has a word; identical texts with a sentence of four words score 1. *)
Open Scope R_scope.
Theorem C56_range : forall A (eqd : forall x y : A, {x = y} + {x <> y}) refs syss c, corpus eqd refs syss = Some c -> sysWords c <> 0%nat -> 0 < bleu c <= 1.
Proof. intros A eqd refs syss c E S. exact (BleuRealProofs.bleu_range c (BleuRealProofs.corpus_ok_counts A eqd refs syss c E S)). Qed.
Print Assumptions C56_range.
Theorem C56_perfect : forall A (eqd : forall x y : A, {x = y} + {x <> y}) refs s c, In s refs -> (4 <= length s)%nat -> corpus eqd refs refs = Some c -> bleu c = 1.
Proof. exact BleuRealProofs.bleu_perfect. Qed.
Print Assumptions C56_perfect.
(** finding: if no output sentence has four words the score is practically zero, however good the output *)
Theorem C56_short_sentences_refuted : forall A (eqd : forall x y : A, {x = y} + {x <> y}) refs syss c, (length refs <= length syss)%nat ->
  Forall (fun s => (length s < 4)%nat) syss -> corpus eqd refs syss = Some c -> sysWords c <> 0%nat -> bleu c <= exp (-999999999 / 4).
Proof. exact BleuRealProofs.bleu_short. Qed.
Print Assumptions C56_short_sentences_refuted.
Example C56_nonvacuous : corpus Nat.eq_dec [[1;2;3;4;5]; [7;8]]%nat [[1;2;3;4]; [7]; [9]]%nat =
  Some {| refWords := 7; sysWords := 5; acc := [(5, 5); (3, 3); (2, 2); (1, 1)] |}%nat /\
  corpus Nat.eq_dec [[1;2;3]]%nat [[1;2;3]]%nat = Some {| refWords := 3; sysWords := 3; acc := [(3, 3); (2, 2); (1, 1); (0, 0)] |}%nat.
Proof. split; reflexivity. Qed.
