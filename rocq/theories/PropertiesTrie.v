(** Prefix trees: C135 (contents), C136 (traversal and shape); word predictor: C137. *)
From Coq Require Import Ascii String Arith List Bool Lia.
From Verif Require Import TextSpec TrieSpec TrieModel TrieProofs PredProofs.
Import ListNotations.

Section TRIE.
Context {K D : Type}.
Variable keq : forall a b : K, {a = b} + {a <> b}.
Variable ddef : D.

(** C135: after any insertions into a new trie, a sequence has the data of its last insertion; a sequence that only begins
    inserted ones has the default data; any other sequence is not found *)
Theorem C135_contents : forall (log : list (list K * D)) q, q <> [] -> (forall q' d, In (q', d) log -> q' <> []) ->
  let r := fold_left (fun r qd => insert keq ddef r (fst qd) (snd qd)) log (new_trie ddef) in
  (forall l1 d l2, log = l1 ++ (q, d) :: l2 -> ~ In q (map fst l2) -> find keq r q = Some d) /\
  (~ In q (map fst log) -> (exists q', In q' (map fst log) /\ is_prefix q q') -> find keq r q = Some ddef) /\
  ((forall q', In q' (map fst log) -> ~ is_prefix q q') -> find keq r q = None).
Proof. exact (inserts_find keq ddef). Qed.
(** inserting never disturbs the data of another sequence *)
Theorem C135_others_kept : forall (r : @root K D) q d q' x, q <> [] -> q' <> [] -> q' <> q -> find keq r q' = Some x ->
  find keq (insert keq ddef r q d) q' = Some x.
Proof. intros r q d q' x N N' NE F. rewrite insert_find by auto. unfold upd. destruct (qeq keq q' q); [congruence|]. now rewrite F. Qed.
(** writing through the pointer find returns *)
Theorem C135_assign : forall (r : @root K D) q d q' x, q <> [] -> q' <> [] -> find keq r q = Some x ->
  find keq (set_data keq r q d) q = Some d /\ (q' <> q -> find keq (set_data keq r q d) q' = find keq r q').
Proof.
  intros r q d q' x N N' F. rewrite !set_find by auto. destruct (qeq keq q q); [|congruence]. rewrite F. split; auto. intros NE.
  destruct (qeq keq q' q); congruence.
Qed.
(** findV gives the data of the prefixes, from one key up, as far as they are found *)
Theorem C135_prefix_data : forall (r : @root K D) q, let v := findV keq r q in length v <= length q /\
  (forall i, i < length v -> find keq r (firstn (S i) q) = nth_error v i) /\
  (length v < length q -> find keq r (firstn (S (length v)) q) = None).
Proof. exact (findV_ok keq). Qed.
(** refuted: a cleared trie is not like a new one, the first node made after clear() keeps the data of the old one *)
Theorem C135_clear_refuted : forall k d rest d', rest <> [] ->
  find keq (insert keq ddef (clear (insert keq ddef (new_trie ddef) [k] d)) (k :: rest) d') [k] = Some d.
Proof. exact (clear_stale keq ddef). Qed.

(** C136: iterating over a trie made by insertions, assignments and clear() gives every stored sequence once, with its data,
    every sequence after its extensions *)
Inductive made : @root K D -> Prop :=
| made_new : made (new_trie ddef)
| made_insert : forall r q d, made r -> made (insert keq ddef r q d)
| made_set : forall r q d, made r -> made (set_data keq r q d)
| made_clear : forall r, made r -> made (clear r).
Lemma made_wf : forall r, made r -> wf_root r.
Proof.
  induction 1; [exact I|now apply insert_wf|now apply set_data_wf|]. destruct r as [s|[|k d ch nx]]; cbn; auto.
Qed.
Theorem C136_iteration : forall r, made r -> exists l, iterate (size r) (begin_root r) = Some l /\ NoDup (map fst l) /\
  (forall q d, In (q, d) l <-> q <> [] /\ find keq r q = Some d) /\
  (forall l1 q d l2, l = l1 ++ (q, d) :: l2 -> forall q' d', In (q', d') l2 -> ~ proper_prefix q q').
Proof.
  intros r M. apply made_wf in M. exists (listing r). split; [now apply iterate_root|]. split; [now apply listing_nodup|].
  split; [now apply listing_in|now apply (listing_order keq)].
Qed.
(** size, height and branchingFactor are the number of stored sequences, the longest length, and the numbers of sequences by length *)
Theorem C136_shape : forall r, made r -> exists l, iterate (size r) (begin_root r) = Some l /\ size r = length l /\
  height r = longest (map fst l) /\
  exists v, branchingFactor r = Some v /\ length v = height r /\ forall j, nth j v 0 = of_length (S j) (map fst l).
Proof.
  intros r M. apply made_wf in M. exists (listing r). split; [now apply iterate_root|]. split; [apply size_listing|].
  split; [now apply height_listing|now apply branching_listing].
Qed.
End TRIE.
Example C135_nonvacuous :
  let ins := fun r q d => insert ascii_dec 0 r q d in
  let r := ins (ins (ins (new_trie 0) (T "the") 3) (T "to") 4) (T "the") 5 in
  find ascii_dec r (T "the") = Some 5 /\ find ascii_dec r (T "th") = Some 0 /\ find ascii_dec r (T "x") = None /\
  findV ascii_dec r (T "then") = [0; 0; 5].
Proof. repeat split; reflexivity. Qed.
Example C136_nonvacuous :
  let ins := fun r q d => insert ascii_dec 0 r q d in
  let r := ins (ins (ins (new_trie 0) (T "the") 3) (T "to") 4) (T "a") 5 in made ascii_dec 0 r /\
  iterate (size r) (begin_root r) = Some [(T "the", 3); (T "th", 0); (T "to", 4); (T "t", 0); (T "a", 5)] /\
  size r = 5 /\ height r = 3 /\ branchingFactor r = Some [2; 2; 1].
Proof. cbv zeta. split; [repeat constructor|]. repeat split; reflexivity. Qed.

(** C137: the word predictor. The sentences of the file it was loaded from, and then the sentences of complete blocks of
    [R] added ones, make up the words it knows. *)
Definition known (sents : list (list str)) (R : nat) (more : list (list str)) : list str := concat sents ++ concat (complete_blocks R more).
Definition trained (sents : list (list str)) (R : nat) (more : list (list str)) : predictor :=
  fold_left addSentence more (p_load new_predictor sents (Some R)).
Lemma trained_counts : forall sents R more, Forall (Forall (fun w => w <> [])) sents -> Forall (Forall (fun w => w <> [])) more ->
  counts (p_trie (trained sents R more)) (known sents R more).
Proof.
  intros sents R more F1 F2. unfold trained, p_load. destruct (retain_1 sents (new_trie 0)) as (T1 & R1 & B1). cbv zeta.
  change (fold_left addSentence sents new_predictor) with (fold_left addSentence sents {| p_trie := new_trie 0; p_retain := 1; p_buf := [] |}).
  rewrite T1, B1, retained. unfold known. apply sents_counts.
  - unfold complete_blocks. apply Forall_forall. intros s H. rewrite Forall_forall in F2. apply F2. rewrite <- (firstn_skipn (R * (length more / R)) more). apply in_or_app. now left.
  - apply (sents_counts sents (new_trie 0) []); auto. apply new_counts.
Qed.
(** the suffix list of an input: strictly decreasing counts; each entry is a suffix that makes a known word, with its number
    of occurrences; each number of occurrences of a known word beginning with the input is there *)
Theorem C137_suffixes : forall sents R more input, Forall (Forall (fun w => w <> [])) sents -> Forall (Forall (fun w => w <> [])) more -> input <> [] ->
  exists out, getSuffixList (trained sents R more) input = Some out /\ desc out /\
  (forall n s, In (n, s) out -> n = times (list_eq_dec ascii_dec) (input ++ s) (known sents R more) /\ 0 < n) /\
  (forall s, 0 < times (list_eq_dec ascii_dec) (input ++ s) (known sents R more) ->
     exists s', In (times (list_eq_dec ascii_dec) (input ++ s) (known sents R more), s') out).
Proof. intros. now apply suffix_list; [apply trained_counts|]. Qed.
(** the best suffix makes a most frequent known word beginning with the input; count 0 and no suffix when there is none *)
Theorem C137_best : forall sents R more input, Forall (Forall (fun w => w <> [])) sents -> Forall (Forall (fun w => w <> [])) more -> input <> [] ->
  exists n s, getBestSuffix (trained sents R more) input = Some (n, s) /\
  (forall s', times (list_eq_dec ascii_dec) (input ++ s') (known sents R more) <= n) /\
  ((0 < n /\ n = times (list_eq_dec ascii_dec) (input ++ s) (known sents R more)) \/ (n = 0 /\ s = [])).
Proof. intros. now apply best_suffix; [apply trained_counts|]. Qed.
(** refuted: after clear() and new sentences, a word never seen since is still counted *)
Theorem C137_clear_refuted : exists before after input n s, let p := fold_left addSentence after (p_clear (fold_left addSentence before new_predictor)) in
  getBestSuffix p input = Some (n, s) /\ 0 < n /\ ~ In (input ++ s) (concat after).
Proof.
  exists [[T "a"; T "a"]], [[T "ab"]], (T "a"), 2, []. cbv zeta. split; [vm_compute; reflexivity|]. split; [lia|]. cbn. intros [H|[]]. discriminate.
Qed.
(** refuted: for an empty input the suffixes lack the first letter of the words *)
Theorem C137_empty_input_refuted : exists sents n s, getBestSuffix (fold_left addSentence sents new_predictor) [] = Some (n, s) /\
  0 < n /\ forall w, In w (concat sents) -> w <> s.
Proof. exists [[T "ab"]], 1, (T "b"). split; [vm_compute; reflexivity|]. split; [lia|]. intros w [<-|[]]. discriminate. Qed.
(** refuted: an empty word makes its first letter count as a word *)
Theorem C137_empty_word_refuted : exists sents n, getBestSuffix (fold_left addSentence sents new_predictor) (T "a") = Some (n, []) /\
  0 < n /\ ~ In (T "a") (concat sents).
Proof. exists [[[]; T "ab"]], 1. split; [vm_compute; reflexivity|]. split; [lia|]. cbn. intros [H|[H|[]]]; discriminate. Qed.
(** sentences of an incomplete block are not known; nothing is learnt with R = 0 *)
Theorem C137_blocks : forall R (more : list (list str)), complete_blocks 0 more = [] /\ complete_blocks 1 more = more /\
  (0 < R -> length more < length (complete_blocks R more) + R).
Proof.
  intros R more. split; [reflexivity|]. unfold complete_blocks. split; [now rewrite Nat.div_1_r, Nat.mul_1_l, firstn_all|].
  intros P. pose proof (Nat.div_mod (length more) R). pose proof (Nat.mod_upper_bound (length more) R). rewrite firstn_length. lia.
Qed.
Example C137_nonvacuous :
  let p := trained [[T "the"; T "house"]; [T "the"; T "horse"; T "house"]] 2 [[T "horse"]; [T "horses"; T "horse"]; [T "hotel"]] in
  known [[T "the"; T "house"]; [T "the"; T "horse"; T "house"]] 2 [[T "horse"]; [T "horses"; T "horse"]; [T "hotel"]] =
    [T "the"; T "house"; T "the"; T "horse"; T "house"; T "horse"; T "horses"; T "horse"] /\
  getSuffixList p (T "ho") = Some [(3, T "rse"); (2, T "use"); (1, T "rses")] /\ getBestSuffix p (T "ho") = Some (3, T "rse") /\
  getBestSuffix p (T "hot") = Some (0, []).
Proof. cbv zeta. repeat split; vm_compute; reflexivity. Qed.

Print Assumptions C135_contents.
Print Assumptions C135_others_kept.
Print Assumptions C135_assign.
Print Assumptions C135_prefix_data.
Print Assumptions C135_clear_refuted.
Print Assumptions C136_iteration.
Print Assumptions C136_shape.
Print Assumptions C137_suffixes.
Print Assumptions C137_best.
Print Assumptions C137_clear_refuted.
Print Assumptions C137_empty_input_refuted.
Print Assumptions C137_empty_word_refuted.
Print Assumptions C137_blocks.
