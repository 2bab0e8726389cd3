(** C49-C51, C61-C65: the incremental n-gram language model and the trie it is stored in. *)
From Coq Require Import Ascii String Arith NArith QArith Qreals List Bool Reals Lra Lia.
From Verif Require Import AMap ContainerSpec ContainerModel ContainerProofs TrieIterSpec TrieIterModel TrieIterProofs
  LmSpec LmModel LmDrive LmTabProofs LmEncProofs LmIoProofs LmJmProofs LmQueryProofs LmStateModel LmStateSpec LmStateProofs.
Import ListNotations.
Open Scope nat_scope.

(** ---------- C49: states ---------- *)
(** the state after any words is the last order-1 words of the padded sentence *)
Theorem C49_state : forall order bos ws, run_state ws (getStateForBeginOfSentence order bos) = Some (context bos (order - 1) ws).
Proof. intros. rewrite begin_ok. apply (states_ok nat ws bos (order - 1) []). Qed.
Print Assumptions C49_state.
(** for any state, given a word the oldest word is forgotten and the new one added *)
Theorem C49_step : forall lgp w st, getNgramLgProbGivenState lgp w st = Some (lgp w st, match st with [] => [] | _ :: r => r ++ [w] end).
Proof. intros. unfold getNgramLgProbGivenState. now rewrite add_word. Qed.
(** the score given the state reached equals the score given the last order-1 words *)
Theorem C49_score_given_state : forall lgp order bos eos ws w st, run_state ws (getStateForBeginOfSentence order bos) = Some st ->
  getNgramLgProbGivenState lgp w st = Some (lgp w (context bos (order - 1) ws), context bos (order - 1) (ws ++ [w])) /\
  getLgProbEndGivenState lgp eos st = Some (lgp eos (context bos (order - 1) ws), context bos (order - 1) (ws ++ [eos])).
Proof.
  intros lgp order bos eos ws w st E. rewrite C49_state in E. injection E as <-. unfold getNgramLgProbGivenState, getLgProbEndGivenState. rewrite !context_step. auto.
Qed.
(** the log10 score of a sentence *)
Theorem C49_sentence : forall lgp bos eos order s, getSentenceLog10Prob lgp bos eos order s = Some (sentence_lg lgp bos eos order s / ln 10)%R.
Proof. exact sentence_ok. Qed.
Print Assumptions C49_sentence.
(** and when the scores are logarithms of probabilities, 10 to the score is the product of the conditional probabilities *)
Definition rprod (l : list R) : R := fold_right Rmult 1%R l.
Theorem C49_sentence_product : forall (p : nat -> list nat -> R) bos eos order s x, (forall w h, 0 < p w h)%R ->
  getSentenceLog10Prob (fun w h => ln (p w h)) bos eos order s = Some x ->
  Rpower 10 x = (rprod (map (fun i => p (nth i s 0%nat) (context bos (order - 1)%nat (firstn i s))) (seq 0 (length s))) * p eos (context bos (order - 1)%nat s))%R.
Proof.
  intros p bos eos order s x P E. rewrite sentence_ok in E. injection E as <-. unfold Rpower.
  replace (sentence_lg (fun w h => ln (p w h)) bos eos order s / ln 10 * ln 10)%R with (sentence_lg (fun w h => ln (p w h)) bos eos order s).
  2:{ assert (ln 10 <> 0)%R by (rewrite <- ln_1; intro H; apply ln_inv in H; lra). field. exact H. }
  unfold sentence_lg. rewrite exp_plus, exp_ln by apply P. f_equal. unfold rsum, rprod. induction (seq 0 (length s)) as [|i l IH]; cbn [map fold_right]; [apply exp_0|].
  rewrite exp_plus, exp_ln by apply P. now rewrite IH.
Qed.
Example C49_nonvacuous : run_state [7; 8; 9] (getStateForBeginOfSentence 3 1) = Some [8; 9] /\ run_state [7] (getStateForBeginOfSentence 3 1) = Some [1; 7] /\
  context 1 2 [7] = [1; 7] /\ run_state [7] (getStateForBeginOfSentence 0 1) = Some [] /\ run_state [7] (getStateForBeginOfSentence 1 1) = Some [].
Proof. repeat split. Qed.

(** ---------- C50: interpolation ---------- *)
Lemma trained : forall evs m, lm_run (incrs evs) lm0 = Some m -> exists iops, lmrel tab0 (incrs evs) iops m /\ forall x, In x specials -> known (lenc m) x.
Proof.
  intros evs m E. destruct (lm_run_ok (incrs evs) tab0 [] [] lm0 specials tab0_wf lmrel0 specials_known (incrs_no_new evs specials)) as (m' & iops & E' & R & _ & K & _).
  rewrite E in E'. injection E' as <-. exists iops. split; [exact R|]. intros x I. apply K. left. now apply specials_known.
Qed.
Theorem C50_distribution : forall evs m j n s, nonneg_counts evs -> lm_run (incrs evs) lm0 = Some m ->
  weights_cover j n -> (forall a, In a (jweights j) -> 0 <= a <= 1)%Q -> length s <= n ->
  exists f, (forall i, jm_p j m s i = Some (f i)) /\ (forall i, In i (vocab (lenc m)) -> 0 <= f i <= 1)%Q /\ (qsum (map f (vocab (lenc m))) <= 1)%Q.
Proof.
  intros evs m j n s NN E C Rg L. destruct (trained evs m E) as (iops & R & K).
  destruct (jm_distribution evs iops m j n s NN R (ex_intro _ UNK_STR (K _ (or_introl eq_refl))) C Rg L) as (f & A & B & D & _). eauto.
Qed.
Print Assumptions C50_distribution.
(** the probabilities sum to exactly one when every history interpolated over has been seen *)
Theorem C50_sums_to_one : forall evs m j n s, nonneg_counts evs -> lm_run (incrs evs) lm0 = Some m ->
  weights_cover j n -> (forall a, In a (jweights j) -> 0 <= a <= 1)%Q -> length s <= n ->
  (forall s', In s' (suffixes (strip_bos (getBosId (lenc m)) s)) -> exists c, cSrc s' (ltab m) = Some c /\ ~ c == 0)%Q ->
  exists f, (forall i, jm_p j m s i = Some (f i)) /\ (qsum (map f (vocab (lenc m))) == 1)%Q.
Proof.
  intros evs m j n s NN E C Rg L H. destruct (trained evs m E) as (iops & R & K).
  destruct (jm_distribution evs iops m j n s NN R (ex_intro _ UNK_STR (K _ (or_introl eq_refl))) C Rg L) as (f & A & _ & _ & B & _). eauto.
Qed.
(** with weights below one no word has probability zero, so every logarithm taken is of a positive number *)
Theorem C50_positive : forall evs m j n s i, nonneg_counts evs -> lm_run (incrs evs) lm0 = Some m ->
  weights_cover j n -> (forall a, In a (jweights j) -> 0 <= a < 1)%Q -> length s <= n -> exists p, jm_p j m s i = Some p /\ (0 < p)%Q.
Proof.
  intros evs m j n s i NN E C Rg L. destruct (trained evs m E) as (iops & R & K).
  destruct (jm_distribution evs iops m j n s NN R (ex_intro _ UNK_STR (K _ (or_introl eq_refl))) C) as (f & A & _ & _ & _ & P); auto.
  { intros a I. destruct (Rg a I). split; auto. now apply Qlt_le_weak. }
  exists (f i). split; auto. apply P. intros a I. apply Rg, I.
Qed.
(** repeating the begin-of-sentence word at the start of the history changes nothing *)
Theorem C50_extra_bos : forall j m s w, let b := getBosId (lenc m) in jm_p j m (b :: b :: s) w = jm_p j m (b :: s) w.
Proof. intros j m s w b. unfold jm_p. fold b. now rewrite strip_bos_ext. Qed.
(** the default model has three weights: a history of three or more words (order 4) reads past them *)
Theorem C50_default_weights_refuted : forall m s w, 3 <= length (strip_bos (getBosId (lenc m)) s) -> jm_p jm0 m s w = None.
Proof.
  intros m s w H. unfold jm_p. destruct (strip_bos (getBosId (lenc m)) s) as [|a r]; [cbn in H; lia|]. cbn [jm_rec].
  replace (jm_weight jm0 (a :: r) (ltab m)) with (@None Q); [reflexivity|]. unfold jm_weight, jm0. cbn [jbuckets Nat.eqb jweights].
  symmetry. apply nth_error_None. cbn [length] in *. lia.
Qed.
(** the mass of a history that was never seen is lost: on an untrained model the probabilities of all words sum to one half *)
Theorem C50_mass_lost_refuted : exists f, (forall i, In i (vocab (lenc lm0)) -> jm_p jm0 lm0 [] i = Some (f i)) /\ (qsum (map f (vocab (lenc lm0))) == 1#2)%Q.
Proof. exists (fun i => match jm_p jm0 lm0 [] i with Some q => q | None => 0%Q end). split; [|reflexivity]. intros i I. cbn in I. repeat (destruct I as [<-|I]; [reflexivity|]). destruct I. Qed.

Definition corpus_events : list (event string) :=
  [([], "a"%string, 1%Q); (["a"%string], "b"%string, 1%Q); ([], "b"%string, 1%Q); (["a"%string], "a"%string, 2%Q); ([], "a"%string, 2%Q)].
Example C50_nonvacuous : exists m, lm_run (incrs corpus_events) lm0 = Some m /\ weights_cover jm0 2 /\ (forall a, In a (jweights jm0) -> 0 <= a < 1)%Q /\
  (exists p, jm_p jm0 m [stringToWordIndex "a" (lenc m)] (stringToWordIndex "b" (lenc m)) = Some p /\ p == 13 # 48)%Q /\
  (forall s', In s' (suffixes (strip_bos (getBosId (lenc m)) [stringToWordIndex "a" (lenc m)])) -> exists c, cSrc s' (ltab m) = Some c /\ ~ c == 0)%Q.
Proof.
  destruct (lm_run (incrs corpus_events) lm0) as [m|] eqn:E; vm_compute in E; [|discriminate]. injection E as <-. eexists. split; [reflexivity|]. split; [|split; [|split]].
  - unfold weights_cover. cbn. repeat split; auto.
  - intros a I. cbn in I. repeat (destruct I as [<-|I]; [split; [discriminate|reflexivity]|]). destruct I.
  - eexists. split; vm_compute; reflexivity.
  - intros s' I. vm_compute in I. repeat (destruct I as [<-|I]; [eexists; split; [vm_compute; reflexivity|vm_compute; discriminate]|]). destruct I.
Qed.

(** ---------- C51: counts ---------- *)
Theorem C51_table_counts : forall evs : list (event nat), exists t, tab_run (incrs evs) tab0 = Some t /\
  (forall h w, exists c, cSrcTrg h w t = Some c /\ c == total_ngram Nat.eq_dec h w evs)%Q /\
  (forall h, exists c, cSrc h t = Some c /\ c == total_hist Nat.eq_dec h evs)%Q.
Proof.
  intro evs. destruct (tab_counts (incrs evs)) as (t & E & A & B). exists t. split; [exact E|]. split.
  - intros h w. eexists. split; [apply A|]. rewrite ngram_after_incrs. ring.
  - intro h. eexists. split; [apply B|]. rewrite hist_after_incrs. ring.
Qed.
(** the count of a history is the sum of the counts of its continuations *)
Theorem C51_consistent : forall (evs : list (event nat)) t h ts, tab_run (incrs evs) tab0 = Some t -> NoDup ts ->
  (forall w c, In (h, w, c) evs -> In w ts) ->
  exists ch, cSrc h t = Some ch /\ (ch == qsum (map (fun w => match cSrcTrg h w t with Some c => c | None => 0 end) ts))%Q.
Proof.
  intros evs t h ts E ND H. destruct (C51_table_counts evs) as (t' & E' & A & B). assert (t' = t) by congruence. subst t'.
  destruct (B h) as (ch & Ec & Q0). exists ch. split; [exact Ec|]. rewrite Q0, (hist_is_sum Nat.eq_dec h ts evs ND H). apply qsum_ext.
  intros w _. destruct (A h w) as (c & -> & Q1). now rewrite Q1.
Qed.
Print Assumptions C51_consistent.
Theorem C51_joint_le_history : forall (evs : list (event nat)) t h w, nonneg_counts evs -> tab_run (incrs evs) tab0 = Some t ->
  exists c ch, cSrcTrg h w t = Some c /\ cSrc h t = Some ch /\ (0 <= c <= ch)%Q.
Proof.
  intros evs t h w NN E. destruct (C51_table_counts evs) as (t' & E' & A & B). assert (t' = t) by congruence. subst t'.
  destruct (A h w) as (c & Ec & Q1), (B h) as (ch & Ech & Q2). exists c, ch. split; auto. split; auto. rewrite Q1, Q2. split; [now apply total_nonneg|now apply ngram_le_hist].
Qed.
(** every sequence of increments and sets, at the table *)
Theorem C51_table_history : forall ops, exists t, tab_run ops tab0 = Some t /\
  (forall h w, cSrcTrg h w t = Some (ngram_after Nat.eq_dec h w ops 0)) /\ (forall h, cSrc h t = Some (hist_after Nat.eq_dec h ops 0)).
Proof. exact tab_counts. Qed.
(** the same through the string interface, whatever the order in which words are first met *)
Theorem C51_string_counts : forall ops, no_new_repeats string_dec specials ops -> exists m, lm_run ops lm0 = Some m /\
  (forall h w, cNgramStr w h m = Some (ngram_after string_dec h w ops 0)) /\ (forall h, cHistStr h m = Some (hist_after string_dec h ops 0)).
Proof. exact lm_counts. Qed.
Theorem C51_string_totals : forall evs : list (event string), exists m, lm_run (incrs evs) lm0 = Some m /\
  (forall h w, exists c, cNgramStr w h m = Some c /\ c == total_ngram string_dec h w evs)%Q /\
  (forall h, exists c, cHistStr h m = Some c /\ c == total_hist string_dec h evs)%Q.
Proof.
  intro evs. destruct (lm_counts (incrs evs) (incrs_no_new evs specials)) as (m & E & A & B). exists m. split; [exact E|]. split.
  - intros h w. eexists. split; [apply A|]. rewrite ngram_after_incrs. ring.
  - intro h. eexists. split; [apply B|]. rewrite hist_after_incrs. ring.
Qed.
Print Assumptions C51_string_totals.
Example C51_nonvacuous : exists m, lm_run (incrs corpus_events) lm0 = Some m /\ cNgramStr "a" ["a"%string] m = Some 2%Q /\ cHistStr ["a"%string] m = Some 3%Q /\ cHistStr [] m = Some 4%Q.
Proof. destruct (lm_run (incrs corpus_events) lm0) as [m|] eqn:E; vm_compute in E; [|discriminate]. injection E as <-. eexists. split; [reflexivity|]. vm_compute. auto. Qed.

(** ---------- C61: iterating over a trie ---------- *)
Theorem C61_visits_every_key_once : forall (K D : Type) (ltb : K -> K -> bool), strict_total ltb -> forall (keq : forall a b : K, {a = b} + {a <> b}) (dflt : D) h t,
  trie_run ltb dflt (tempty dflt) h = Some t ->
  exists l, trie_entries t = Some l /\ NoDup (map fst l) /\ length l = trie_size t /\
    (forall p d, p <> [] -> (In (p, d) l <-> trie_find ltb p t = Some (Some d))) /\ (exists d, In ([], d) l) /\ longest_first (map fst l).
Proof.
  intros K D ltb ST keq dflt h t E. destruct (trie_run_ok ltb ST dflt h (tempty dflt) (twf_empty ltb dflt)) as (t' & E' & W). assert (t' = t) by congruence. subst t'.
  destruct (trie_entries t) as [l|] eqn:El; [|rewrite entries_post in El; discriminate]. exists l. split; [reflexivity|].
  destruct (entries_exact ltb ST t l W El) as [[ND X] Lf]. split; [exact ND|]. split; [rewrite entries_post in El; injection El as <-; apply post_length|]. split; [|split].
  - intros p d NE. rewrite X. destruct p; [congruence|]. reflexivity.
  - exists (tdata t). apply X. reflexivity.
  - exact Lf.
Qed.
Print Assumptions C61_visits_every_key_once.
Example C61_nonvacuous : exists t, trie_run Nat.ltb 0 (tempty 0) [([1;2], 12); ([1;3;4], 134); ([5], 99)] = Some t /\
  trie_entries t = Some [([1;2], 12); ([1;3;4], 134); ([1;3], 0); ([1], 0); ([5], 99); ([], 0)].
Proof. eexists. split; vm_compute; reflexivity. Qed.

(** ---------- C62: word codes ---------- *)
Theorem C62_codes : forall ops m, no_new_repeats string_dec specials ops -> lm_run ops lm0 = Some m ->
  (forall w, known (lenc m) w <-> In w specials \/ exists o, In o ops /\ In w (op_words o)) /\
  (forall w, known (lenc m) w -> wordIndexToString (stringToWordIndex w (lenc m)) (lenc m) = w) /\
  (forall w, existSymbol w (lenc m) = true <-> known (lenc m) w) /\
  (forall w, ~ known (lenc m) w -> stringToWordIndex w (lenc m) = UNK_SYMBOL).
Proof.
  intros ops m NR E. destruct (lm_run_ok ops tab0 [] [] lm0 specials tab0_wf lmrel0 specials_known NR) as (m' & iops & E' & (W & _) & _ & K & _).
  rewrite E in E'. injection E' as <-. split; [|split; [|split]].
  - intro w. rewrite K. split; intros [H|H]; auto; left; [|now apply specials_known]. destruct H as (i & H). apply aget_some_in in H. cbn in H. cbn.
    repeat (destruct H as [H|H]; [injection H as <- _; tauto|]). destruct H.
  - intros w (i & H). unfold stringToWordIndex, HighTrg_to_Trg, wordIndexToString. rewrite H. apply (proj1 (proj2 W)) in H. now rewrite H.
  - intro w. unfold existSymbol, HighTrg_to_Trg, known. destruct (enc_find w (lenc m)) as [i|]; cbn [fst]; split; try discriminate; eauto. intros (i & H). discriminate.
  - intros w N. unfold stringToWordIndex, HighTrg_to_Trg. destruct (enc_find w (lenc m)) as [i|] eqn:G; auto. exfalso. apply N. exists i. exact G.
Qed.
Print Assumptions C62_codes.
Theorem C62_injective : forall ops m w w', no_new_repeats string_dec specials ops -> lm_run ops lm0 = Some m -> known (lenc m) w -> known (lenc m) w' ->
  stringToWordIndex w (lenc m) = stringToWordIndex w' (lenc m) -> w = w'.
Proof.
  intros ops m w w' NR E K K' H. destruct (C62_codes ops m NR E) as (_ & R & _). rewrite <- (R w K), <- (R w' K'). now rewrite H.
Qed.
(** codes never change as more calls are made *)
Theorem C62_stable : forall ops ops' m m' w, no_new_repeats string_dec specials (ops ++ ops') -> lm_run ops lm0 = Some m -> lm_run ops' m = Some m' -> known (lenc m) w ->
  stringToWordIndex w (lenc m') = stringToWordIndex w (lenc m).
Proof.
  intros ops ops' m m' w NR E E' (i & K).
  assert (S1 : forall o k, no_new_repeats string_dec k (o ++ ops') -> no_new_repeats string_dec k o /\ exists k', no_new_repeats string_dec k' ops' /\ (forall x, In x k' <-> In x k \/ exists o', In o' o /\ In x (op_words o'))).
  { induction o as [|o os IH]; intros k H; [split; [exact I|exists k; split; [exact H|]]|].
    - intro x. split; auto. intros [H0|(o' & [] & _)]; auto.
    - cbn [app no_new_repeats] in H. destruct H as [H1 H2]. destruct (IH _ H2) as (A & k' & B & C). split; [split; auto|]. exists k'. split; [exact B|].
      intro x. rewrite C, in_app_iff. split.
      + intros [[X|X]|(o' & X & Y)]; [right; exists o; split; auto; now left|auto|right; exists o'; split; auto; now right].
      + intros [X|(o' & [<-|X] & Y)]; auto. right. eauto. }
  destruct (S1 ops specials NR) as (NR1 & k' & NR2 & KK).
  destruct (lm_run_ok ops tab0 [] [] lm0 specials tab0_wf lmrel0 specials_known NR1) as (m1 & iops & E1 & R & _ & K1 & _). rewrite E in E1. injection E1 as <-.
  destruct (lm_run_ok ops' tab0 _ _ m k' tab0_wf R) as (m2 & iops' & E2 & _ & X & _); auto.
  { intros x Ix. apply K1. apply KK in Ix. destruct Ix as [Ix|Ix]; auto. left. now apply specials_known. }
  rewrite E' in E2. injection E2 as <-. unfold stringToWordIndex, HighTrg_to_Trg. rewrite K, (X w i K). reflexivity.
Qed.
(** a history in which a new word occurs twice is stored under two codes for that word, so it cannot be found again *)
Theorem C62_repeated_new_word_refuted : exists m, addTableEntryHigh ["a"; "a"]%string "b" 3 2 lm0 = Some m /\ cNgramStr "b" ["a"; "a"]%string m = Some 0%Q /\ cHistStr ["a"; "a"]%string m = Some 0%Q.
Proof. destruct (addTableEntryHigh ["a"; "a"]%string "b" 3 2 lm0) as [m|] eqn:E; vm_compute in E; [|discriminate]. injection E as <-. eexists. split; [reflexivity|]. vm_compute. auto. Qed.
(** loading a vocabulary does not advance the code generator: the next new word gets the code of a loaded word *)
Theorem C62_loaded_vocabulary_refuted : exists e, let e0 := snd (trg_code "x" lm_enc0) in e = snd (trg_code "y" (enc_load (enc_print e0) lm_enc0)) /\
  stringToWordIndex "x" e = stringToWordIndex "y" e /\ existSymbol "x" e = true /\ existSymbol "y" e = true /\ wordIndexToString (stringToWordIndex "x" e) e = "y"%string.
Proof. eexists. split; [reflexivity|]. vm_compute. auto. Qed.
Example C62_nonvacuous : no_new_repeats string_dec specials [OpIncr ["a"; "a"]%string "b"%string 1%Q; OpSet ["a"; "b"]%string "c"%string 1%Q 2%Q].
Proof. cbn [no_new_repeats op_words]. split; [exact I|]. split; [|exact I]. intros w Iw N. exfalso. apply N. cbn in *. tauto. Qed.

(** ---------- C63: printing and loading ---------- *)
Theorem C63_print_lists_counts : forall ops m, no_new_repeats string_dec specials ops -> lm_run ops lm0 = Some m ->
  exists lines, lm_print m = Some lines /\ NoDup (map line_key lines) /\
    forall hs w cs c, In (hs, w, cs, c) lines <-> (Qle_bool c 0 = false /\ cNgramStr w hs m = Some c /\ cHistStr hs m = Some cs).
Proof.
  intros ops m NR E. destruct (lm_run_ok ops tab0 [] [] lm0 specials tab0_wf lmrel0 specials_known NR) as (m' & iops & E' & R & _). rewrite E in E'. injection E' as <-.
  destruct (lm_print_ok ops iops m R) as (lines & P & ND & L). exists lines. split; [exact P|]. split; [exact ND|]. intros hs w cs c. rewrite L.
  destruct (counts_str ops iops m R) as [A B]. rewrite A, B. split; intros (X & Y & Z); split; auto; split; congruence.
Qed.
Print Assumptions C63_print_lists_counts.
Theorem C63_print_load : forall evs m lines, nonneg_counts evs -> lm_run (incrs evs) lm0 = Some m -> lm_print m = Some lines ->
  no_new_repeats string_dec specials (map line_op lines) ->
  exists m', lm_load (map Some lines) lm0 = Some m' /\
    (forall h w, exists a b, cNgramStr w h m = Some a /\ cNgramStr w h m' = Some b /\ (a == b)%Q) /\
    (forall h, exists a b, cHistStr h m = Some a /\ cHistStr h m' = Some b /\ (a == b)%Q).
Proof.
  intros evs m lines NN E P NR. destruct (trained evs m E) as (iops & R & _).
  exact (print_load evs iops m lines lm0 specials NN R P encwf0 specials_known NR).
Qed.
(** a model that already knows the words reads its own output back, whatever is in it *)
Theorem C63_reload : forall evs m lines, nonneg_counts evs -> lm_run (incrs evs) lm0 = Some m -> lm_print m = Some lines ->
  exists m', lm_load (map Some lines) m = Some m' /\
    (forall h w, exists a b, cNgramStr w h m = Some a /\ cNgramStr w h m' = Some b /\ (a == b)%Q) /\
    (forall h, exists a b, cHistStr h m = Some a /\ cHistStr h m' = Some b /\ (a == b)%Q).
Proof.
  intros evs m lines NN E P. destruct (trained evs m E) as (iops & R & _). pose proof R as (W & _).
  refine (print_load evs iops m lines m (map fst (h2x (lenc m))) NN R P W _ _).
  - intros x I. apply in_map_iff in I. destruct I as ([w i] & <- & I). exists i. apply aget_in; auto. apply W.
  - assert (HK : forall l, In l lines -> forall x, In x (fst (fst (fst l))) -> In x (map fst (h2x (lenc m)))).
    { assert (S0 : forall s hs, Src_to_HighSrc s (lenc m) = Some hs -> forall x, In x hs -> In x (map fst (h2x (lenc m)))).
      { induction s as [|i s IH]; intros hs H x I; cbn [Src_to_HighSrc] in H; [injection H as <-; destruct I|].
        destruct (Trg_to_HighTrg i (lenc m)) as [w|] eqn:G; cbn [obind] in H; [|discriminate]. destruct (Src_to_HighSrc s (lenc m)) as [hs'|]; cbn [obind] in H; [|discriminate].
        injection H as <-. destruct I as [<-|I]; [|eapply IH; eauto]. apply (proj1 (proj2 W)) in G. apply aget_some_in in G. apply in_map_iff. exists (w, i). auto. }
      unfold lm_print in P. destruct (trie_entries (tst (ltab m))) as [es|]; cbn [obind] in P; [|discriminate]. revert lines P.
      induction es as [|[k c] es IH]; intros lines P; cbn [print_loop] in P; [injection P as <-; intros l []|].
      destruct ((0 <? length k) && negb (Qle_bool c 0)); [|now apply IH].
      destruct (Src_to_HighSrc (removelast k) (lenc m)) as [hs|] eqn:G; cbn [obind] in P; [|discriminate]. destruct (Trg_to_HighTrg (last k 0) (lenc m)); cbn [obind] in P; [|discriminate].
      destruct (cSrc (removelast k) (ltab m)); cbn [obind] in P; [|discriminate]. destruct (print_loop m es) as [r|]; cbn [obind] in P; [|discriminate]. injection P as <-.
      intros l [<-|I] x Ix; [eapply S0; eauto|eapply IH; eauto]. }
    assert (G : forall ls k, (forall l, In l ls -> forall x, In x (fst (fst (fst l))) -> In x k) -> no_new_repeats string_dec k (map line_op ls)).
    { induction ls as [|[[[hs w] cs] c] ls IH]; intros k H; cbn [map line_op no_new_repeats]; [exact I|]. split.
      - intros x Ix N. exfalso. apply N. apply (H (hs, w, cs, c)); [now left|exact Ix].
      - apply IH. intros l I0 x Ix. apply in_or_app. right. apply (H l); [now right|exact Ix]. }
    apply G. exact HK.
Qed.
Print Assumptions C63_reload.
(** the order of the loaded model is that of its longest n-gram *)
Theorem C63_order : forall (lines : list ngram_line) old n, lines <> [] ->
  (forall l, In l lines -> length (fst (fst (fst l))) + 1 <= n) -> (exists l, In l lines /\ length (fst (fst (fst l))) + 1 = n) -> (N.of_nat n < 4294967294)%N ->
  load_order (map Some lines) old = N.of_nat n.
Proof.
  intros lines old n NE U (l0 & I0 & E0) B.
  assert (M : forall l : ngram_line, length (fst (fst (fst l))) + 1 <= n -> minus2_u32 (line_NF (Some l)) = N.of_nat (length (fst (fst (fst l))) + 1)).
  { intros [[[hs w] cs] c] L. cbn [fst] in *. unfold minus2_u32, line_NF.
    replace (N.of_nat (length hs) + 3 + 4294967296 - 2)%N with (N.of_nat (length hs + 1) + 1 * 4294967296)%N by lia. rewrite N.mod_add by discriminate. apply N.mod_small. lia. }
  assert (F : forall (ls : list ngram_line) o, (forall l : ngram_line, In l ls -> length (fst (fst (fst l))) + 1 <= n) -> (o <= N.of_nat n)%N -> let r := fold_left (fun o l => if (o <? minus2_u32 (line_NF l))%N then minus2_u32 (line_NF l) else o) (map Some ls) o in
     (r <= N.of_nat n /\ o <= r /\ forall l, In l ls -> N.of_nat (length (fst (fst (fst l))) + 1) <= r)%N).
  { induction ls as [|l ls IH]; intros o H Ho; cbv zeta; cbn [map fold_left]; [split; [lia|split; [lia|intros l []]]|].
    assert (Hl : length (fst (fst (fst l))) + 1 <= n) by (apply H; now left). cbv zeta in IH. rewrite (M l Hl).
    destruct (N.ltb_spec o (N.of_nat (length (fst (fst (fst l))) + 1))) as [Lt|Ge].
    - destruct (IH (N.of_nat (length (fst (fst (fst l))) + 1))) as (A & C & D); [intros; apply H; now right|lia|]. split; [lia|]. split; [lia|]. intros l' [<-|I']; [lia|]. now apply D.
    - destruct (IH o) as (A & C & D); [intros; apply H; now right|lia|]. split; [lia|]. split; [lia|]. intros l' [<-|I']; [lia|]. now apply D. }
  unfold load_order. destruct (F lines 0%N U ltac:(lia)) as (A & _ & D). specialize (D l0 I0). rewrite E0 in D. destruct lines; [congruence|].
  set (r := fold_left _ _ _) in *. assert (r = N.of_nat n) by lia. rewrite H. destruct (N.eqb_spec (N.of_nat n) 0); [lia|reflexivity].
Qed.
(** loading an empty file leaves the order as it was *)
Theorem C63_empty_file_order : forall old, load_order [] old = old.
Proof. reflexivity. Qed.
Print Assumptions C63_empty_file_order.
(** one blank line in the n-gram file sets the order of the model to 2^32-2 *)
Theorem C63_blank_line_refuted : forall ls ls', (forall l, In (Some l) (ls ++ ls') -> (N.of_nat (length (fst (fst (fst l)))) < 4294967293)%N) -> forall old, load_order (ls ++ None :: ls') old = 4294967294%N.
Proof.
  intros ls ls' H old. unfold load_order.
  assert (M : forall l, In l (ls ++ None :: ls') -> (minus2_u32 (line_NF l) <= 4294967294)%N).
  { intros [[[[hs w] cs] c]|] I; [|vm_compute; discriminate]. assert (I' : In (Some (hs, w, cs, c)) (ls ++ ls')). { apply in_app_or in I. apply in_or_app. destruct I as [I|[I|I]]; [auto|discriminate|auto]. }
    specialize (H _ I'). cbn [fst] in H. unfold minus2_u32, line_NF.
    replace (N.of_nat (length hs) + 3 + 4294967296 - 2)%N with (N.of_nat (length hs) + 1 + 1 * 4294967296)%N by lia. rewrite N.mod_add by discriminate. rewrite N.mod_small by lia. lia. }
  assert (F : forall l o, (forall x, In x l -> (minus2_u32 (line_NF x) <= 4294967294)%N) -> (o <= 4294967294)%N -> (o = 4294967294%N \/ In None l) ->
     fold_left (fun o l => if (o <? minus2_u32 (line_NF l))%N then minus2_u32 (line_NF l) else o) l o = 4294967294%N).
  { induction l as [|x l IH]; intros o Hx Ho Hn; cbn [fold_left]; [destruct Hn as [Hn|[]]; auto|].
    pose proof (Hx x (or_introl eq_refl)) as Bx. apply IH; [intros; apply Hx; now right| |].
    - destruct (N.ltb_spec o (minus2_u32 (line_NF x))); lia.
    - destruct Hn as [->|[->|Hn]]; [left|left|auto].
      + destruct (N.ltb_spec 4294967294 (minus2_u32 (line_NF x))); lia.
      + replace (minus2_u32 (line_NF None)) with 4294967294%N by reflexivity. destruct (N.ltb_spec o 4294967294); lia. }
  rewrite F; [reflexivity|exact M|lia|]. right. apply in_or_app. right. now left.
Qed.
(** a trigram whose two history words are the same new word is lost when a printed model is loaded in a new program *)
Theorem C63_repeat_lost_refuted : exists m lines m', lm_run (incrs [(["a"; "a"]%string, "b"%string, 2%Q)]) lm0 = Some m /\ lm_print m = Some lines /\ lm_load (map Some lines) lm0 = Some m' /\
  cNgramStr "b" ["a"; "a"]%string m = Some 2%Q /\ cNgramStr "b" ["a"; "a"]%string m' = Some 0%Q.
Proof.
  destruct (lm_run (incrs [(["a"; "a"]%string, "b"%string, 2%Q)]) lm0) as [m|] eqn:E; vm_compute in E; [|discriminate]. injection E as <-.
  eexists. eexists. eexists. split; [reflexivity|]. split; [vm_compute; reflexivity|]. split; [vm_compute; reflexivity|]. vm_compute. auto.
Qed.
Example C63_nonvacuous : exists m lines, lm_run (incrs corpus_events) lm0 = Some m /\ lm_print m = Some lines /\ length lines = 4 /\ no_new_repeats string_dec specials (map line_op lines).
Proof.
  destruct (lm_run (incrs corpus_events) lm0) as [m|] eqn:E; vm_compute in E; [|discriminate]. injection E as <-. eexists. eexists. split; [reflexivity|]. split; [vm_compute; reflexivity|].
  split; [reflexivity|]. cbn [map line_op no_new_repeats op_words]. repeat split; intros w Iw N; cbn in Iw; repeat (destruct Iw as [<-|Iw]; [reflexivity|]); destruct Iw.
Qed.

(** ---------- C64: perplexity ---------- *)
Theorem C64_perplexity : forall lgp bos eos order stoi lines, lines <> [] -> (forall l, In l lines -> l <> []) ->
  let total := rsum (map (fun l => sentence_lg lgp bos eos order (map stoi l) / ln 10)%R lines) in
  perplexity lgp bos eos order stoi lines =
  Some (length lines, length (concat lines), total, exp (- (total / INR (length (concat lines) + length lines)) * ln 10)%R).
Proof.
  intros lgp bos eos order stoi lines NE H total. unfold perplexity. rewrite perp_loop_ok by exact H. cbn [plus].
  destruct (Nat.eqb_spec (length (concat lines) + length lines) 0) as [Z|_]; [destruct lines; [congruence|cbn [length] in Z; lia]|].
  replace (0 + rsum (map (fun l => (sentence_lg lgp bos eos order (map stoi l) / ln 10)%R) lines))%R with total by (unfold total; lra). reflexivity.
Qed.
Print Assumptions C64_perplexity.
(** the value is one over the geometric mean of the conditional probabilities *)
Theorem C64_geometric_mean : forall lgp bos eos order stoi lines ns nw total perp, (forall l, In l lines -> l <> []) ->
  perplexity lgp bos eos order stoi lines = Some (ns, nw, total, perp) ->
  0 < nw + ns /\ (perp ^ (nw + ns)%nat = / exp (rsum (map (fun l => sentence_lg lgp bos eos order (map stoi l)) lines)))%R.
Proof.
  intros lgp bos eos order stoi lines ns nw total perp H E. destruct lines as [|l0 lines]; [discriminate|].
  rewrite C64_perplexity in E; [|discriminate|exact H]. cbv zeta in E. remember (l0 :: lines) as ll eqn:Ell. assert (P1 : 0 < length ll) by (subst ll; cbn [length]; lia). clear Ell.
  injection E as <- <- <- <-.
  set (N0 := (length (concat ll) + length ll)%nat). assert (P0 : (0 < N0)%nat) by (unfold N0; lia).
  assert (Pl : (0 < INR N0)%R) by (apply lt_0_INR; exact P0). split; [exact P0|].
  assert (L10 : ln 10 <> 0%R) by (rewrite <- ln_1; intro X; apply ln_inv in X; lra).
  assert (PW : forall x n, (exp x ^ n = exp (INR n * x))%R). { intros x n. induction n as [|n IHn]; [cbn; rewrite Rmult_0_l, exp_0; reflexivity|]. cbn [pow]. rewrite IHn, <- exp_plus, S_INR. f_equal. ring. }
  rewrite PW, <- exp_Ropp. f_equal.
  assert (SD : forall ls : list (list string), rsum (map (fun l => sentence_lg lgp bos eos order (map stoi l) / ln 10)%R ls) = (rsum (map (fun l => sentence_lg lgp bos eos order (map stoi l)) ls) / ln 10)%R).
  { induction ls as [|x ls IHl]; unfold rsum in *; cbn [map fold_right]; [unfold Rdiv; ring|]. rewrite IHl. unfold Rdiv. ring. }
  rewrite SD. field. split; [exact L10|lra].
Qed.
(** a blank line counts the previous sentence a second time *)
Theorem C64_blank_line_refuted : forall lgp bos eos order stoi v, v <> [] ->
  exists perp perp', let x := (sentence_lg lgp bos eos order (map stoi v) / ln 10)%R in
    perplexity lgp bos eos order stoi [v] = Some (1, length v, x, perp) /\
    perplexity lgp bos eos order stoi [v; []] = Some (2, length v, (x + x)%R, perp').
Proof.
  intros lgp bos eos order stoi v NE. set (x := (sentence_lg lgp bos eos order (map stoi v) / ln 10)%R).
  exists (exp (- (x / INR (length v + 1)) * ln 10)%R), (exp (- ((x + x) / INR (length v + 2)) * ln 10)%R). cbv zeta. fold x.
  unfold perplexity. rewrite blank_line by exact NE. rewrite perp_loop_ok by (intros l [<-|[]]; exact NE). fold x. cbn [perp_loop concat length plus map]. rewrite app_nil_r. fold x.
  replace (0 + rsum [x])%R with x by (unfold rsum; cbn [fold_right]; lra). replace (0 + x + x)%R with (x + x)%R by lra.
  destruct (Nat.eqb_spec (length v + 1) 0); [lia|]. destruct (Nat.eqb_spec (length v + 2) 0); [lia|]. split; reflexivity.
Qed.
(** a blank first line adds an uninitialised number; an empty corpus divides zero by zero *)
Theorem C64_blank_first_line_refuted : forall lgp bos eos order stoi ls, perplexity lgp bos eos order stoi ([] :: ls) = None /\ perplexity lgp bos eos order stoi [] = None.
Proof. intros. split; reflexivity. Qed.
Example C64_nonvacuous : perplexity (fun _ _ => (- ln 10)%R) 1 2 3 (fun _ => 5) [["a"]; ["b"; "c"]]%string =
  Some (2, 3, (-5)%R, 10%R).
Proof.
  rewrite C64_perplexity; [|discriminate|intros l [<-|[<-|[]]]; discriminate]. cbv zeta.
  assert (L10 : ln 10 <> 0%R) by (rewrite <- ln_1; intro X; apply ln_inv in X; lra).
  set (T := rsum _). assert (ET : T = (-5)%R). { unfold T, sentence_lg, rsum. cbn [map length seq fold_right]. field. exact L10. }
  rewrite ET. cbn [length concat app]. f_equal. f_equal. change (3 + 2) with 5. replace (INR 5) with 5%R by (cbn; lra).
  replace (- (-5 / 5) * ln 10)%R with (ln 10) by field. apply exp_ln. lra.
Qed.

(** ---------- C65: table queries ---------- *)
Theorem C65_entries_for_source : forall ops t s, tab_run ops tab0 = Some t -> s <> [] ->
  exists l, getEntriesForSource s t = Some l /\ NoDup (map fst l) /\
    forall w cs c, In (w, (cs, c)) l <-> (cSrcTrg s w t = Some c /\ Qeq_bool c 0 = false /\ cSrc s t = Some cs).
Proof. exact entries_for_source. Qed.
Print Assumptions C65_entries_for_source.
(** for the empty history nothing is ever returned, although unigrams are stored *)
Theorem C65_unigrams_refuted : (forall t l, getEntriesForSource [] t = Some l -> l = []) /\
  exists t, tab_run (incrs [([], 5, 1%Q)]) tab0 = Some t /\ cSrcTrg [] 5 t = Some 1%Q /\ getEntriesForSource [] t = Some [].
Proof. split; [exact entries_empty_source|]. destruct (tab_run (incrs [([], 5, 1%Q)]) tab0) as [t|] eqn:E; vm_compute in E; [|discriminate]. injection E as <-. eexists. split; [reflexivity|]. vm_compute. auto. Qed.
(** the count of a target word: starts from -99999 and adds the counts of the n-grams that begin with the word *)
Theorem C65_target_count_refuted : exists t, tab_run (incrs [([4], 5, 1%Q)]) tab0 = Some t /\ cTrg 5 t = Some (-99999 # 1)%Q /\ (exists x, cTrg 4 t = Some x /\ x == -99998 # 1)%Q.
Proof. destruct (tab_run (incrs [([4], 5, 1%Q)]) tab0) as [t|] eqn:E; vm_compute in E; [|discriminate]. injection E as <-. eexists. split; [reflexivity|]. split; [reflexivity|]. eexists. split; vm_compute; reflexivity. Qed.
(** the probability of a word given a history is its relative frequency *)
Theorem C65_relative_frequency : forall (evs : list (event nat)) t s w, tab_run (incrs evs) tab0 = Some t ->
  exists p, tab_p s w t = Some p /\ (p == if Qeq_bool (total_hist Nat.eq_dec s evs) 0 then 0 else total_ngram Nat.eq_dec s w evs / total_hist Nat.eq_dec s evs)%Q.
Proof.
  intros evs t s w E. destruct (C51_table_counts evs) as (t' & E' & A & B). assert (t' = t) by congruence. subst t'. destruct (A s w) as (c & Ec & Q1), (B s) as (ch & Ech & Q2).
  unfold tab_p. rewrite Ech. cbn [obind]. unfold cSrcTrg in Ec. destruct (tfind (s ++ [w]) (tst t)) as [r|]; cbn [obind] in *; [|discriminate]. injection Ec as Ec. eexists. split; [reflexivity|].
  assert (ZB : Qeq_bool ch 0 = Qeq_bool (total_hist Nat.eq_dec s evs) 0) by (now rewrite Q2).
  destruct r as [d|]; subst c.
  - rewrite ZB. destruct (Qeq_bool (total_hist Nat.eq_dec s evs) 0); [reflexivity|]. now rewrite Q1, Q2.
  - destruct (Qeq_bool (total_hist Nat.eq_dec s evs) 0); [reflexivity|]. rewrite <- Q1. unfold Qdiv. ring.
Qed.
Example C65_nonvacuous : exists t l, tab_run (incrs [([4], 5, 1%Q); ([4], 6, 2%Q); ([4; 4], 6, 2%Q)]) tab0 = Some t /\ getEntriesForSource [4] t = Some l /\ map fst l = [5; 6].
Proof.
  destruct (tab_run (incrs [([4], 5, 1%Q); ([4], 6, 2%Q); ([4; 4], 6, 2%Q)]) tab0) as [t|] eqn:E; vm_compute in E; [|discriminate]. injection E as <-. eexists. eexists. split; [reflexivity|]. split; vm_compute; reflexivity.
Qed.
