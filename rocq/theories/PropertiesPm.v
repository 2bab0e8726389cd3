(** C108-C110: counts, probabilities and table files of the phrase model. *)
From Coq Require Import Ascii String Arith ZArith NArith QArith Qreals Reals List Bool Lia Lra Permutation.
From Verif Require Import TextSpec TextModel AMap VocabSpec VocabModel AligSpec ExtrSpec ExtrModel CodecModel PtSpec PtModel PmSpec PmModel PmProofs PmText PmPrint PmReload.
Import ListNotations.
Open Scope Z_scope.
Local Notation R := Rdefinitions.R.

(** C108: the three counts after any history of word-level calls *)
Theorem C108_word_level_counts : forall h hs ht, Forall usable_op h -> fits_index h -> usable hs -> usable ht -> ht <> [] ->
  let m := pm_run h pm_clear in
  cHSrcHTrg hs ht m = k_st (scounts_after h) hs ht /\ cHSrc hs m = k_s (scounts_after h) hs /\ cHTrg ht m = k_t (scounts_after h) ht.
Proof. exact pm_counts. Qed.
(** C108: the counts after training on a word-aligned corpus *)
Theorem C108_training_counts : forall P items, Forall good_item items -> corpus_fits items -> forall m0, exists m Ls,
  generateWbaIncrPhraseModel P items m0 = Some m /\ Forall2 (item_spans P) items Ls /\
  forall hs ht, usable hs -> usable ht -> ht <> [] ->
   cHSrcHTrg hs ht m = sumof (fun x => it_reps (fst x) * how_many (fun q => is_phrase hs (span_s (fst x) q) && is_phrase ht (span_t (fst x) q)) (snd x)) (combine items Ls) /\
   cHSrc hs m = sumof (fun x => it_reps (fst x) * how_many (fun q => is_phrase hs (span_s (fst x) q)) (snd x)) (combine items Ls) /\
   cHTrg ht m = sumof (fun x => it_reps (fst x) * how_many (fun q => is_phrase ht (span_t (fst x) q)) (snd x)) (combine items Ls).
Proof. exact training_counts. Qed.
(** C108: training in pieces, in batches given as vectors or at once, is the same *)
Theorem C108_incremental : forall P a b m0,
  generateWbaIncrPhraseModel P (a ++ b) m0 = match generateWbaIncrPhraseModel P a m0 with None => None | Some m => extendModelFromAlignments P b m end.
Proof.
  intros P a b m0. unfold generateWbaIncrPhraseModel. generalize pm_clear as m. induction a as [|i a IH]; intros m; [reflexivity|]. cbn [extendModelFromAlignments app].
  destruct (extendModelFromPairPlusAlig _ _ _ _ _ m); [apply IH|reflexivity].
Qed.
Theorem C108_vectors : forall P ss ts ws n m, length ss = length ts -> length ss = length ws ->
  extModelFromPairAligVec P ss ts ws n m = extendModelFromAlignments P (map (fun x => mkitem (snd x) (fst (fst x)) (snd (fst x)) n) (combine (combine ss ts) ws)) m.
Proof.
  intros P ss ts ws n m E1 E2. unfold extModelFromPairAligVec. rewrite <- E1, <- E2, Nat.eqb_refl. cbn [andb]. revert ts ws m E1 E2.
  induction ss as [|s ss IH]; intros [|t ts] [|A ws] m E1 E2; try discriminate; [reflexivity|]. cbn [ext_vec_loop combine map extendModelFromAlignments it_s it_t it_A it_reps fst snd].
  destruct (extendModelFromPairPlusAlig _ _ _ _ _ m); [|reflexivity]. apply IH; cbn [length] in *; congruence.
Qed.
Theorem C108_vectors_of_other_lengths : forall P ss ts ws n m, length ss <> length ts \/ length ss <> length ws -> extModelFromPairAligVec P ss ts ws n m = Some m.
Proof.
  intros P ss ts ws n m H. unfold extModelFromPairAligVec. destruct (Nat.eqb (length ss) (length ts)) eqn:E1; [|reflexivity]. destruct (Nat.eqb (length ss) (length ws)) eqn:E2; [|reflexivity].
  apply Nat.eqb_eq in E1, E2. lia.
Qed.
(** refuted without [usable]: the counts of two different pairs share an entry *)
Theorem C108_reserved_word_refuted : let h := [SIncr [T "x"] [T "x"] 1; SIncr [T "y"] [T "x"; T "<UNUSED_WORD>"; T "x"] 5] in
  k_st (scounts_after h) [T "x"] [T "x"] = 1 /\ cHSrcHTrg [T "x"] [T "x"] (pm_run h pm_clear) = 6.
Proof. vm_compute. split; reflexivity. Qed.
Print Assumptions C108_word_level_counts.
Print Assumptions C108_training_counts.
Print Assumptions C108_incremental.
Print Assumptions C108_vectors.
Print Assumptions C108_vectors_of_other_lengths.
Print Assumptions C108_reserved_word_refuted.

(** C109: P(t|s) = c(s,t)/c(s) and P(s|t) = c(s,t)/c(t), not below the floor 1e-10; an unseen pair has the floor *)
Open Scope R_scope.
Theorem C109_probabilities : forall h hs ht s t, trained h -> Forall usable_op h -> fits_index h -> usable hs -> usable ht -> ht <> [] ->
  known_indices hs (p_sv (pm_run h pm_clear)) = Some s -> known_indices ht (p_tv (pm_run h pm_clear)) = Some t ->
  let c := IZR (k_st (scounts_after h) hs ht) in
  (k_st (scounts_after h) hs ht = 0%Z -> exp (logpt_s_ s t (pm_run h pm_clear)) = / 10000000000 /\ exp (logps_t_ s t (pm_run h pm_clear)) = / 10000000000) /\
  (k_st (scounts_after h) hs ht <> 0%Z -> 0 < c /\ exp (logpt_s_ s t (pm_run h pm_clear)) = Rmax (/ 10000000000) (c / IZR (k_s (scounts_after h) hs)) /\
     exp (logps_t_ s t (pm_run h pm_clear)) = Rmax (/ 10000000000) (c / IZR (k_t (scounts_after h) ht))).
Proof. exact phrase_probs. Qed.
(** C109: the translations of a source phrase share probability 1; L: its targets with their word indices *)
Theorem C109_targets_sum_to_one : forall h hs s, trained h -> Forall usable_op h -> fits_index h -> usable hs -> In hs (map sop_s h) -> (k_s (scounts_after h) hs <= 10000000000)%Z ->
  known_indices hs (p_sv (pm_run h pm_clear)) = Some s ->
  forall L, NoDup (map fst L) -> (forall o, In o h -> sop_s o = hs -> In (sop_t o) (map fst L)) ->
  (forall ht t, In (ht, t) L -> known_indices ht (p_tv (pm_run h pm_clear)) = Some t /\ exists o, In o h /\ sop_s o = hs /\ sop_t o = ht) ->
  fold_right Rplus 0 (map (fun x => exp (logpt_s_ s (snd x) (pm_run h pm_clear))) L) = 1.
Proof. exact probs_sum_trg. Qed.
Theorem C109_sources_sum_to_one : forall h ht t, trained h -> Forall usable_op h -> fits_index h -> usable ht -> In ht (map sop_t h) -> (k_t (scounts_after h) ht <= 10000000000)%Z ->
  known_indices ht (p_tv (pm_run h pm_clear)) = Some t ->
  forall L, NoDup (map fst L) -> (forall o, In o h -> sop_t o = ht -> In (sop_s o) (map fst L)) ->
  (forall hs s, In (hs, s) L -> known_indices hs (p_sv (pm_run h pm_clear)) = Some s /\ exists o, In o h /\ sop_s o = hs /\ sop_t o = ht) ->
  fold_right Rplus 0 (map (fun x => exp (logps_t_ (snd x) t (pm_run h pm_clear))) L) = 1.
Proof. exact probs_sum_src. Qed.
Print Assumptions C109_probabilities.
Print Assumptions C109_targets_sum_to_one.
Print Assumptions C109_sources_sum_to_one.
Close Scope R_scope.

(** C110: the printed table has exactly one line for every pair of the history, with c(s) and c(s,t) *)
Theorem C110_printed_lines : forall h, trained h -> Forall usable_op h -> fits_index h -> h <> [] -> forall es, Permutation es (p_tab (pm_run h pm_clear)) ->
  exists lines, printTTable (pm_run h pm_clear) es = Some lines /\ NoDup (map (fun l => (l_s l, l_t l)) lines) /\
  forall l, In l lines <-> exists o, In o h /\ l = mkline (sop_s o) (sop_t o) (k_s (scounts_after h) (sop_s o)) (k_st (scounts_after h) (sop_s o) (sop_t o)).
Proof. exact print_lines. Qed.
(** C110: a file with these lines, in any order, loads into a model with the same counts *)
Theorem C110_print_load : forall h, trained h -> h <> [] -> Forall usable_op h -> fits_index h ->
  Forall (fun o => Forall file_word (sop_s o) /\ Forall file_word (sop_t o) /\ sop_s o <> [] /\ sop_t o <> []) h ->
  forall es, Permutation es (p_tab (pm_run h pm_clear)) -> exists lines, printTTable (pm_run h pm_clear) es = Some lines /\
  forall lines', Permutation lines lines' -> exists m', loadPlainTextTTable (ttable_file lines') pm_clear = Some m' /\
  forall hs ht, usable hs -> usable ht -> ht <> [] ->
    cHSrcHTrg hs ht m' = cHSrcHTrg hs ht (pm_run h pm_clear) /\ cHSrc hs m' = cHSrc hs (pm_run h pm_clear) /\ cHTrg ht m' = cHTrg ht (pm_run h pm_clear).
Proof. intros h TR NE US FI FO. exact (print_reload h TR NE US FO FI). Qed.
(** C110: loading any file made of well-formed lines does the corresponding strAddTableEntry calls *)
Theorem C110_load : forall ls m, Forall file_line ls -> loadPlainTextTTable (ttable_file ls) m = Some (pm_run (map (fun l => SAdd (l_s l) (l_t l) (l_cs l) (l_cst l)) ls) m).
Proof. exact load_file_ok. Qed.
(** refuted for the empty model: begin() walks off the end of the table *)
Theorem C110_empty_table_refuted : printTTable pm_clear (p_tab pm_clear) = None.
Proof. reflexivity. Qed.
(** refuted for the word "|||": the pair is lost, and another one appears *)
Theorem C110_separator_word_refuted : let h := [SIncr [T "x"] [T "y"; T "|||"; T "7"; T "5"] 1] in exists lines m',
  printTTable (pm_run h pm_clear) (p_tab (pm_run h pm_clear)) = Some lines /\ loadPlainTextTTable (ttable_file lines) pm_clear = Some m' /\
  cHSrcHTrg [T "x"] [T "y"; T "|||"; T "7"; T "5"] (pm_run h pm_clear) = 1 /\ cHSrcHTrg [T "x"] [T "y"; T "|||"; T "7"; T "5"] m' = 0 /\ cHSrcHTrg [T "x"] [T "y"] m' = 5.
Proof. eexists; eexists. vm_compute. repeat split; reflexivity. Qed.
(** refuted for an empty source phrase: its line is skipped on loading *)
Theorem C110_empty_source_refuted : let h := [SIncr [] [T "y"] 1] in exists lines m',
  printTTable (pm_run h pm_clear) (p_tab (pm_run h pm_clear)) = Some lines /\ loadPlainTextTTable (ttable_file lines) pm_clear = Some m' /\
  cHSrcHTrg [] [T "y"] (pm_run h pm_clear) = 1 /\ cHSrcHTrg [] [T "y"] m' = 0.
Proof. eexists; eexists. vm_compute. repeat split; reflexivity. Qed.
Print Assumptions C110_printed_lines.
Print Assumptions C110_print_load.
Print Assumptions C110_load.
Print Assumptions C110_empty_table_refuted.
Print Assumptions C110_separator_word_refuted.
Print Assumptions C110_empty_source_refuted.

(** non-vacuity *)
Definition exh : list sop := [SIncr [T "la"; T "casa"] [T "the"; T "house"] 2; SIncr [T "casa"] [T "house"] 3; SIncr [T "casa"] [T "home"] 1; SIncr [T "hogar"] [T "home"] 1].
Lemma exh_usable : Forall usable_op exh.
Proof. repeat constructor; cbn; try discriminate; intros H; repeat (destruct H as [H|H]; [discriminate|]); exact H. Qed.
Lemma exh_fits : fits_index exh. Proof. split; vm_compute; discriminate. Qed.
Example C108_nonvacuous : Forall usable_op exh /\ fits_index exh /\ usable [T "casa"] /\
  cHSrc [T "casa"] (pm_run exh pm_clear) = 4 /\ cHTrg [T "home"] (pm_run exh pm_clear) = 2 /\ cHSrcHTrg [T "casa"] [T "house"] (pm_run exh pm_clear) = 3.
Proof. split; [exact exh_usable|]. split; [exact exh_fits|]. split; [intros [H|[]]; discriminate|]. vm_compute. auto. Qed.
Example C109_nonvacuous : trained exh /\ (exists s t, known_indices [T "casa"] (p_sv (pm_run exh pm_clear)) = Some s /\ known_indices [T "house"] (p_tv (pm_run exh pm_clear)) = Some t) /\
  k_st (scounts_after exh) [T "casa"] [T "house"] = 3 /\ k_s (scounts_after exh) [T "casa"] = 4.
Proof. split; [repeat constructor; lia|]. split; [|vm_compute; auto]. eexists; eexists. vm_compute. split; reflexivity. Qed.
Example C109_sum_nonvacuous : exists L : list (sphrase * phrase), NoDup (map fst L) /\ length L = 2%nat /\ (forall o, In o exh -> sop_s o = [T "casa"] -> In (sop_t o) (map fst L)) /\
  (forall ht t, In (ht, t) L -> known_indices ht (p_tv (pm_run exh pm_clear)) = Some t /\ exists o, In o exh /\ sop_s o = [T "casa"] /\ sop_t o = ht).
Proof.
  exists [([T "house"], [4%N]); ([T "home"], [5%N])]. split; [repeat constructor; cbn; intuition discriminate|]. split; [reflexivity|]. split.
  - intros o H E. cbn in H. repeat (destruct H as [<-|H]; [try discriminate E; cbn; auto|]). destruct H.
  - intros ht t [H|[H|[]]]; injection H as <- <-; (split; [vm_compute; reflexivity|]); [exists (SIncr [T "casa"] [T "house"] 3)|exists (SIncr [T "casa"] [T "home"] 1)]; cbn; auto.
Qed.
Example C110_nonvacuous : trained exh /\ Forall (fun o => Forall file_word (sop_s o) /\ Forall file_word (sop_t o) /\ sop_s o <> [] /\ sop_t o <> []) exh /\
  exists ls, printTTable (pm_run exh pm_clear) (p_tab (pm_run exh pm_clear)) = Some ls /\ length ls = 4%nat.
Proof.
  split; [repeat constructor; lia|]. split.
  - repeat constructor; cbn; try discriminate; try (intros H; repeat (destruct H as [H|H]; [discriminate|]); exact H).
  - eexists. split; [vm_compute; reflexivity|reflexivity].
Qed.
(** a corpus: "a b" / "c d" aligned diagonally, twice, and "a" / "c" *)
Definition exA (n : nat) : wam := mkwam n n (fun i j => if Nat.eqb i j then 1%N else 0%N).
Definition exP : epars := mkpars false 7 false false.
Definition exitems : list titem := [mkitem (exA 2) [T "a"; T "b"] [T "c"; T "d"] 2; mkitem (exA 1) [T "a"] [T "c"] 1].
Example C108_training_nonvacuous : Forall good_item exitems /\ corpus_fits exitems /\ exists m, generateWbaIncrPhraseModel exP exitems pm_clear = Some m /\
  cHSrcHTrg [T "a"] [T "c"] m = 3 /\ cHSrcHTrg [T "a"; T "b"] [T "c"; T "d"] m = 2 /\ cHSrcHTrg [T "a"] [T "d"] m = 0.
Proof.
  split; [|split; [split; vm_compute; discriminate|]].
  - assert (Z1 : forall n, zero_one (exA n)). { intros n i j. cbn. destruct (Nat.eqb i j); auto. }
    apply Forall_forall. intros i Hi. cbn in Hi. destruct Hi as [<-|[<-|[]]]; repeat (split; [first [reflexivity|apply Z1|discriminate|cbn; intros H; repeat (destruct H as [H|H]; [discriminate|]); exact H]|]);
      cbn; intros H; repeat (destruct H as [H|H]; [discriminate|]); exact H.
  - eexists. vm_compute. repeat split; reflexivity.
Qed.
