# Formal model of daormar/thot in Rocq (Coq 8.16.1)

## Layout

`rocq/theories/<Area>Model.v` transcribes the C++ functions (each definition cites file and lines);
`<Area>Spec.v` (where useful) holds the small independent specification; `<Area>Proofs.v` the lemmas;
`Properties<Area>.v` contains only the property theorems (`exact lemma`), their non-vacuity `Example`s and
`Print Assumptions`.  `MANIFEST.json` maps property ids to theorem names.

## Modelling conventions

* `unsigned int` is `N` (or `nat` where the code never approaches 2^32 and no arithmetic wraps; said in the comment).
  Where wrap-around is observable it is written as `mod 2^32`.
* `std::vector` is `list`; `std::map` is an association structure with the observable laws of a map
  (a function-like `list` kept sorted, or `gmap`); out-of-range access / dereferencing `end()` is the outcome
  `None` (undefined behaviour), never silently totalised.
* `float`/`double` counts are modelled by exact numbers (`Z`, `Q` or `R` as cited): rounding is not modelled.
* files are lists of lines or bytes; sockets are byte lists plus a schedule of fragment sizes.
* threads are an interleaving transition system whose atomic steps are the code between lock operations.

## Properties: what is modelled and how it is proved

| id | model | method |
|----|-------|--------|
| C01-C05 | base-254 digit codecs of the three LevelDB/HatTrie tables as functions `list N -> list N` (bytes); LevelDB as byte-ordered key list, range scan | arithmetic on `N` div/mod, induction on phrases; lexicographic order lemma |
| C06-C10 | `Bitset.h` words as `list N` of 32-bit words | `N.testbit` reasoning; numeric value `sum w_i 2^(32 i)` as specification |
| C11 | `OrderedVector.h` with its binary search loop | sortedness invariant, refinement to a finite map |
| C12 | `TrieVecs.h` nodes with OrderedVector-like children | refinement to a map on prefixes, induction on keys |
| C13-C15 | DP table of `_editDist.h` computed in the same order | inductive edit scripts as specification, induction on table |
| C16-C19 | `WordAligMatrix.cc` as `list (list N)` with loops as folds, growDiagFinal's fixpoint loop with proved-sufficient fuel | pointwise lemmas; monotone measure for termination |
| C20-C21 | `SingleWordVocab.cc` maps, print/load of lines | invariant over histories |
| C22-C24 | string scanning loops over `list ascii` | induction on strings |
| C25-C28 | three-map Stl table; single string-keyed table of HatTrie/LevelDB over the codec | refinement to triple of count functions |
| C29-C30 | `IncrLexTable.cc` vectors of maps and the binary record stream | frame laws; byte-level roundtrip |
| C31 | `LightSentenceHandler.cc` with file cursors | cursor invariant over access histories |
| C32 | `BasicSocketUtils.cc` byte stream with recv schedules | induction on messages |
| C33-C36 | `SmtStack.h`, `SmtMultiStackRec.h`, `HypStateDict.h`; multiset as stably sorted list, iterators as identity tags | invariants over histories |
| C37 | `bleu.cc: prec_n` loops | greedy matching = multiset intersection |
| C38-C40 | `UserNameToUserIdMap.cc`, `ThotDecoder.cc` locking as transition systems | inductive invariants over all schedules |
| C41 | `anjiMatrix.cc` slots, ring pointer | invariant over write histories |
| C42-C43 | `PhraseExtractionTable.cc` cells and coverage sets | cell invariant by induction on the table order |
| C44-C47 | `WordGraph.cc`, `NbSearchStack.cc`, integer scores | path semantics; A* invariant |
| C48 | `NbestTableNode.h` multimap | sortedness invariant |
| C49-C51 | n-gram LM state, count tables, interpolation over `Q`/`R` | induction |
| C52 | `MathFuncs.cc` over `R` | Coq Reals |
| C53-C54 | last word, prefix tests, trimming of `StrProcUtils.cc` over `list ascii` | induction on strings; single-word defect as `_refuted` |
| C55 | entry listings of the phrase tables (`PtEntries.v`) | refinement to the finite map of C25-C28 |
| C56 | BLEU score formula over `R` | Reals; sums of clipped counts of C37 |
| C57-C58 | best path and pruning of `WordGraph.cc` | relaxation in topological order, path induction |
| C59-C60 | combinatorics and distribution functions of `MathFuncs.cc` over `R` | induction on loops; telescoping |
| C61 | stack-based iterator of `TrieVecs.h` | in-order enumeration, induction on the trie |
| C62-C65 | word encoder, n-gram count tables, printing/loading, perplexity of the incremental LM | histories; text round trip; reals for perplexity |
| C66-C69 | `IncrIbm1AligModel.cc`: queries, E-step, sessions of training, likelihood (`Ibm1*.v`, `EmMath.v`) | log-domain numbers as reals; sum over alignments as specification; Jensen for the EM bound |
| C70-C74 | `_incrHmmAligModel.cc`, P0 variant, caches | Viterbi/forward/backward recursions against sums and maxima over all paths |
| C75-C76 | `WeightedIncrNormSlm.cc` | exact sample statistics; interval masses |
| C77-C80 | hypotheses, gaps and expansion of `_pbTransModel.h`, `PhraseHypothesis*` | reachable-state invariant |
| C81-C82 | constraints and annotation parser of `TranslationMetadata.h` | round trip of the annotated text; invariant of the expansion |
| C83-C84 | `_stackDecoder.h`/`_stackDecoderRec.h` loops over the multi-stack model of C33-C36 | invariants over pops; termination measure; optimality |
| C85 | arcs recorded by the decoder | every arc a derivation step, every derivation step an arc |
| C86-C89 | log-linear features, states for recombination, heuristics, translation-option pruning | score = weighted sum on the whole translation; admissibility |
| C90-C91 | instantiation of C83-C85 with C77-C89 (`PbModel.v`) | composition |
| C92-C93 | word-level prefix edit distance and correction of `_editDistBasedEcm.cc`, `PfsmEcm.cc`, `EditDistForVecString.cc` | cheapest script as specification |
| C94-C96 | `PfsmEcmForWg.cc`, `WgProcessorForAnlp.h`: score columns per word-graph state, reuse between prefixes, n-best corrections | column invariant along the graph; histories; refuted variants |
| C97-C100 | `IncrIbm2AligModel.cc`, `IncrIbm2AligTable.cc` (`Ibm2*.v`, `NdProofs.v`, `NdTrain.v`): queries, E-step, sessions of training, likelihood | parameter tables for arbitrary keys instantiated twice; sum over alignments as specification; Jensen and two M-step bounds |
| C101-C104 | `thot_{sort,merge,filter,prune}_bin_*.cc`, `thot_gen_bin_lex_filter_info.cc`, `thot_gen_batch_sw_model_mr.sh` (`Mr*.v`): tables of counts on disk and training by chunks | files as lists of records, priority queue as any order it may give; merge refined to sums of counts; chunked iteration refined to batch training of `Ibm2Model.v` |
| C105-C107 | HmmTrainModel.v / HmmTrainSpec.v: HMM training (both variants); E-step against sums over state paths, sessions by a simulation invariant over the generic table pass of NdGen.v, normalisation via C72 |
| C108-C110 | `PmModel.v` / `PmSpec.v`: the phrase model (`_incrPhraseModel.cc`, `_wbaIncrPhraseModel.cc`, `WbaIncrPhraseModel.cc`, `CategPhrasePairFilter.cc`) over the table of C25-C28 and the extraction of C42 | word-level histories simulated by index-level ones through the vocabulary invariant; marginals; text fields as in C01-C04 |
| C111-C113 | `GfmtModel.v` (%g and atof on rationals), `WgfModel.v` / `WgfSpec.v` (`WordGraph.cc` print, load, setCompWeights) | decimal rounding in Q; fields of lines as in C23; invariant of the state tables over histories |
| C114-C117 | GizaModel.v: AlignmentExtractor (both readers, transposeAlig, the six file operations) and printAligFuncs over a stream of lines with the stale buffer at end of file; GizaSpec.v: entries, `op_spec`, `combined`, `zipped` | field lemmas on the printed line, link counting per cell, invariants of the token scanner for arbitrary lines (GizaText, GizaProofs, GizaTotal); the matrix operations are those of C16-C18 |
| C118-C120 | ContModel.v: AlignmentContainer (vocabularies, the map ordered by VecUnsignedIntSortCriterion, extract, the six operations, both printers) over GizaModel; ContSpec.v: `occurrences`, `operands`, `chain`, `kept` | the criterion is a strict total order and the map sorted; the map of numbered sentences refines lookups by words (ContProofs); growth of the vocabularies keeps lookups (ContMain) |
| C121-C123 | EvalModel.v: MiraWer (ed and the three scores), MiraGtm (common n-grams row by row, any sort outcome, greedy cover, scores), chrf.cc calculate_chrf/count_ngrams, MiraChrF; EvalSpec.v: `edits`, `shared`, `share`, `mean_share`, `same_grams` | rows of ed equal the matrix of C13; the greedy cover is a matching of equal words that is maximal because every unigram is tried, hence the multiset intersection; sums of shares over Q |
| C124-C126 | KbMiraLlWu.cc: update, updateClosedCorpus, MaxTranslation, HopeFear, sampleWoReplacement (KbModel.v); spec KbSpec.v | invariant: the totals are the sum of the visited weights; algebra of the passive-aggressive step; labels of the cycles of the permutation |
| C127-C130 | step_by_step_dhs.c, thot_dhs_step_by_step_min.cc variables (DhsModel.v); spec DhsSpec.v | the program as requests and answers; invariant: the first smallest stored value is accurate and below all requested ones |
| C131-C134 | CatSpec/CatModel/CatProofs: ThotDecoder.cc :2367-2642 and :2902-3226 (merging, mark insertion, expansion, sessions); translator, pre/post-processor and predictor are arbitrary functions, different at each call (record env); locks, verbose output and pruning switches not modelled. Proved by induction over the words of the prefix, over strings, and over sessions |
| C135-C137 | TrieSpec/TrieModel/TrieProofs/PredProofs: Trie.h (insert, find, findV, getState, clear, size, height, branchingFactor, iterator stack) as an inductive first-child/next-sibling tree with the uninitialised object as a separate case; WordPredictor.cc on top, Count as nat; file reading as lists of word lists | induction over the tree and the list of operations; invariant: the trie counts the words |
| C138-C142 | DescModel.v: ModelDescriptorUtils.cc, expandLibDirIfFound, WgHandler.cc, SegLenTable.cc on file contents (TextModel lines and fields, GfmtModel numbers, exact rational counts) | induction over lines and entries; std::map as a list sorted by a proved dictionary order; table reload by induction over rows |
| C143-C146 | TuneModel: scoreTrgSentence, reference/prefix LM heuristics, getBestSuffixGivenHist, interpolated phrase scores, perplexity objective, updateModelWeights/updatePmLinInterpWeights | induction over sentences and features against lm_score; reals via LogNum; composition with the predictor (C137), %g (C111) and the simplex (C127, C128) |
| C147-C149 | DictModel: DictFeat (file loading), OnTheFlyDictFeat (histories), NonPbEcModelForNbUcat::correct | induction over files and histories against the latest entry; composition with the error correction proofs (C93) |
| C150-C151 | JsonModel: obtainTransConstraints, addTranslations, isPhraseInSentence of JsonTranslationMetadata.h over the value picojson returns (picojson itself not modelled). Spec: inductive first-occurrence assignment; proofs: loop invariant over the scan with the partial map; completeness by following an ordered placement; refutations for out-of-bounds read, dropped tags, thrown exception. |
| C152-C154 | WeightModel: weight vectors of _pbTransModel.h, updateLogLinearWeights / onlineTrainLogLinWeights, lambda files of SmtModelUtils.cc. Spec: features zipped with the weights in force, defined over the history; proofs by induction on the feature lists and on the history; files by the number-format theorems of C112. |
| C155-C156 | OnlModel: trainAligModel's interlaced iterations and addNewTransOpts over an arbitrary phrase extraction at each visit. Proof by invariant: counts = initial + last extraction of each sample, remembered pairs = last extraction or discarded for good; refuted when E does not divide R or E = 0. |
| C157-C158 | OpsModel: parseAlignOpsFile of thot_alig_op.cc over a file system of names to texts, with align_op of GizaModel. Spec: steps carried out one after the other; entries combined step by step. Induction on the script with the line and field theorems C23, C24 and C115 for each step; refuted for unterminated scripts, missing files and unknown operations. |
| C159 | OpsContModel: main and parseAlignOpsFile of thot_alig_op.cc with -exhaustive and compact output, with the container of ContModel. The script is shown to be the list of container calls of C119. |

Every property above is expressible; none is declared not applicable.

## Trusted base

* Coq 8.16.1's kernel (`coqc`; no plugin, no `Admitted`, no axiom, functor or module type of our own).
* The axioms that `Print Assumptions` lists.  `AXIOMS.md` (generated by `tools/gen_axioms.py` from a finished build)
  gives the list for every theorem of `MANIFEST.json`.  Most theorems are closed under the global context.  The theorems
  about real-number models (C49, C52, C56, C59, C60, C64, C66-C76 and the IBM 2 properties) use only the axioms of Coq's standard library of
  reals: `ClassicalDedekindReals.sig_not_dec`, `ClassicalDedekindReals.sig_forall_dec`,
  `FunctionalExtensionality.functional_extensionality_dep` and `Classical_Prop.classic`.
* The faithfulness of the transcription from C++ to Gallina.  Every model definition cites the file and lines it
  transcribes and says where it simplifies.

## What is modelled

Per model file (comments in the file give the lines):
`CodecModel`/`LevelDbModel` (phrase/word/n-gram key codecs, range scans), `BitsetModel`, `ContainerModel` (OrderedVector, TrieVecs,
NbestTableNode), `TrieIterModel`, `EditDistModel`, `AligModel` (WordAligMatrix), `TextModel` (StrProcUtils, AwkInputStream),
`VocabModel`, `PtModel`/`PtEntries` (three phrase tables), `LexTabModel`, `SentModel`, `SockModel`, `StackModel`,
`BleuModel`/`BleuRealModel`, `UserIdModel`, `DecLockModel` (ThotDecoder locking), `AnjiModel`, `WgModel`, `ExtrModel`, `MathModel`,
`LmModel`/`LmStateModel`, `Ibm1Model`, `HmmModel`, `SlmModel`, `DecModel`, `MetaModel`, `SearchModel`, `SearchWgModel`, `FeatModel`,
`HeurModel`, `PbModel`, `EcModel`, `EcwModel`, `EcnModel`, `Ibm2Model`, `MrModel`/`MrTrainModel` (chunk-by-chunk training), `HmmTrainModel`,
`PmModel` (phrase models), `GfmtModel` (numbers in text files), `WgfModel` (word-graph files), `GizaModel`/`ContModel` (alignment files and
containers), `EvalModel` (WER, GTM, chrF), `KbModel` (k-best MIRA), `DhsModel` (downhill simplex), `CatModel` (prefixes in interactive
translation), `TrieModel` (Trie and word predictor), `DescModel` (model descriptors, word-graph handler, segment lengths), `TuneModel` (feature
queries, tuning of interpolation weights), `DictModel` (dictionary and on-the-fly features), `JsonModel` (JSON source sentences), `WeightModel`
(log-linear weights), `OnlModel` (online phrase-pair learning), `OpsModel`/`OpsContModel` (scripts of alignment operations).

## What is not modelled

* Floating-point rounding, overflow and NaN: `float`/`double` are exact (`Z`, `Q`, `R`); log-domain numbers are reals.
* The C++ memory model, allocation failure, destructors; LevelDB and HatTrie themselves (assumed to be ordered byte-key maps).
* Most command-line tools (`thot_*` mains, shell scripts) and option parsing, the XML metadata variant and the JSON parser picojson (the
  reading of the parsed JSON document is modelled), Moses phrase-table import and dynamic class loading.
* Threads other than those of the server's locking (C38-C40).

## Findings (each is a theorem ending in `_refuted`, with the concrete counterexample)

* C01 (Phrase-table key encoding round-trips): `C01_unbounded_words_refuted`. Round trip proved for all phrases with words below 254^3; C01_unbounded_words_refuted shows the collision above it.
* C02 (Phrase-table keys never alias): `C02_empty_target_refuted`. Injectivity and disjointness proved; C02_empty_target_refuted records the aliasing for an empty target phrase.
* C05 (LevelDB range scan returns exactly the entries of a target word): `C05_last_word_lost_refuted`. Over every history of setter calls; t=2^32-1 wraps and returns nothing (C05_last_word_lost_refuted).
* C09 (Bitset increment and addition): `C09_plus_refuted`. operator++ proved; operator+ proved under the no-lost-carry side condition and refuted without it (finding).
* C10 (Bitset right shift and count): `C10_count_beyond_words_refuted`. Every shift amount (also >= the size); count out of range reads past the array (refuted).
* C15 (Prefix edit distance ignores the untranslated tail): `C15_empty_target_refuted`. Non-empty y proved (value for non-negative, operations for positive deletion cost); the empty-y exception is proved as a refutation.
* C16 (Alignment matrix set operations): `C16_difference_refuted`. Links = non-zero cells. -= is refuted: it never removes a link.
* C19 (Alignment vector import/export): `C19_put_get_roundtrip_refuted`. Import proved; export characterized exactly and the round trip refuted (values come back reduced by one).
* C21 (Vocabulary file round trip): `C21_gapped_file_refuted`. Words non-empty without blank, newline, NUL; fewer than 2^31 words; any map iteration order. Gapped-file index collision proved.
* C24 (Line reading loses the last character of an unterminated file): `C24_unterminated_line_refuted`. The defect on unterminated last lines is proved for every such file.
* C25 (Phrase table stores what was added): `C25_unknown_source_refuted`. Proved for the in-memory table after every history. Finding: addSrcTrgInfo for a source phrase not in the table uses an end() iterator as key (C25_unknown_source_refuted). Counts are integers; float rounding not modelled.
* C28 (Phrase table backends agree): `C28_leveldb_overwrites_refuted`. Integral counts. Finding: LevelDB addTableEntry overwrites the target total (C28_leveldb_overwrites_refuted).
* C29 (Lexical table get/set laws): `C29_memory_found_flag_refuted`. In-memory table: LexTabModel (floats as bit patterns, OrderedVector as finite map, justified by C11). LevelDB half in PropertiesCodec. Finding: found flag of in-memory getTransForTarget.
* C31 (Sentence handler random access): `C31_short_count_file_refuted`. Files as byte strings read through the AwkInputStream model; handler may have been used before; finding: short count file.
* C32 (Socket message framing): `C32_fragmentation_refuted`, `C32_write_failure_unnoticed_refuted`. Wire as byte list, each recv bounded by what has arrived; findings: fragmentation, unnoticed write failure.
* C34 (Recombination keeps one hypothesis per state): `C34_default_class_refuted`, `C34_shared_state_refuted`, `C34_shrinking_refuted`. Safety for every history; uniqueness/optimality/completeness under the stated class condition; refutations for the default class function and for setMaxStackSize shrinking.
* C35 (Multi-stack pop is best-first): `C35_top_refuted`, `C35_removeLast_worst_refuted`. pop/top/removeLast on every reachable multi-stack; findings for top and removeLast in best-first mode are proved as _refuted.
* C39 (Model-changing operations exclude translations): `C39_release_under_translation_refuted`, `C39_translate_after_release_refuted`, `C39_table_grows_while_locked_refuted`, `C39_clear_races_with_lookup_refuted`. Concurrent model of all decoder operations that lock. Exclusion, same-user exclusion and slot disjointness proved over all interleavings; findings: release_user_data frees data under a running translation and leaves the user registered, per_user_mut grows while locked, clearTrans does not take user_id_to_idx_mut.
* C40 (Decoder locking is deadlock free unless user initialization fails): `C40_deadlock_refuted`. Progress, finiteness of schedules, completion of all calls under every maximal schedule, no lost wakeup, without relying on spurious wakeups; the failing initUserPars leak and its permanent blocking proved.
* C41 (Bounded alignment-statistics matrix behaves as a FIFO cache): `C41_load_into_zero_refuted`, `C41_load_into_bounded_refuted`, `C41_mixed_use_refuted`. FIFO refinement for both usages, save/load continuation, three findings (load into zero/bounded matrix, mixed use)
* C42 (Extracted phrase pairs: exactly the consistent ones): `C42_whole_target_refuted`, `C42_empty_source_refuted`, `C42_too_long_refuted`. Findings (_refuted): a whole-target span is only accepted when all source words are covered, so tight pairs of e.g. one-word targets are lost; an empty source sentence yields an empty source phrase with weight 0/0; sentences of 101+ words leave the caller's vector with the previous result.
* C43 (Och extraction: exactly the consistent pairs without wide gaps): `C43_unaligned_gap_refuted`. Finding (_refuted): the gap test is inverted/off by one: consistent pairs with two adjacent unaligned target words between linked ones are lost.
* C44 (Word-graph rest scores are best completions): `C44_unordered_refuted`. Maximum over all paths; with a magnitude bound it is exactly the best completion; topological order needed (C44_unordered_refuted).
* C45 (Word-graph n-best list is correct): `C45_final_with_successors_refuted`. Termination, soundness, optimality, sufficient condition for the stack limit not to matter; C45_final_with_successors_refuted shows the hypothesis on final states is needed.
* C46 (Word-graph arc bookkeeping): `C46_order_refuted`. Adjacency for every history incl. pruning; reordering gives a topological order but does not renumber the adjacency lists (C46_order_refuted, finding).
* C47 (Useful-state computation): `C47_unreachable_final_refuted`. Useful states, renumbering, preservation of complete paths both ways; C47_unreachable_final_refuted is a finding.
* C50 (Interpolated n-gram probabilities form a distribution): `C50_default_weights_refuted`, `C50_mass_lost_refuted`. Distribution, exact sum for seen histories, positivity, BOS stripping. Findings: default weights cover only order 3 (out-of-bounds read otherwise); mass of unseen histories is lost (sum 1/2 on an untrained model).
* C53 (Last word of a string): `C53_single_word_refuted`. Single-word defect proved for every single word.
* C55 (Phrase table entry listings are exact): `C55_stl_empty_table_refuted`. Findings: in-memory getEntriesForTarget dereferences begin() of an empty map; LevelDB flag counts visited keys.
* C56 (BLEU scores lie in (0,1] and identical texts score 1): `C56_short_sentences_refuted`. Score formula over the reals (standard-library real axioms); float rounding not modelled; sysWords>0 needed.
* C57 (Best path in a word graph): `C57_positive_score_refuted`, `C57_final_initial_refuted`. Two undefined-behaviour findings as _refuted theorems.
* C58 (Word-graph pruning keeps what is within the threshold): `C58_initial_score_refuted`. Initial score counted twice when non-zero (C58_initial_score_refuted, finding).
* C59 (Combinatorial functions are exact): `C59_choose_none_refuted`. Finding (_refuted): logNumbPermsOfTwoElems(J,0) returns 1 where the logarithm of the number of arrangements is 0.
* C60 (Distribution functions are distributions): `C60_triang_above_refuted`. Finding (_refuted): triang_cdf returns 0 above its support instead of 1. norm_cdf (erf) is not modelled.
* C62 (Word codes are a bijection that never changes): `C62_repeated_new_word_refuted`, `C62_loaded_vocabulary_refuted`. Holds for histories in which addTableEntry is not given a new word twice in one history. Findings: repeated new word gets two codes; loading a vocabulary does not advance the code generator, so the next new word collides.
* C63 (Printing and loading a language model keeps every count): `C63_blank_line_refuted`, `C63_repeat_lost_refuted`. Round trip proved; findings: repeated new history word is lost on load into a fresh program; a blank line sets the order to 2^32-2.
* C64 (Perplexity is the inverse geometric mean probability): `C64_blank_line_refuted`, `C64_blank_first_line_refuted`. Proved for corpora without blank lines. Findings: a blank line counts the previous sentence again; a blank first line adds an uninitialised value.
* C65 (Count-table queries agree with the stored counts): `C65_unigrams_refuted`, `C65_target_count_refuted`. Proved for non-empty histories. Findings: nothing is ever returned for the empty history; cTrg starts at -99999 and compares the first word.
* C66 (Word alignment model 1: probability, best alignment, incremental evaluation): `C66_alignment_score_refuted`, `C66_unknown_word_refuted`. Findings: calcLgProbForAlig scores the alignment with every source position decreased by one (C66_alignment_score_refuted); a target word without any translation inherits the source position of the previous word (C66_unknown_word_refuted). Real arithmetic.
* C70 (HMM Viterbi alignment is optimal): `C70_underflow_refuted`, `C70_null_word_refuted`. Refuted parts: underflow (all paths <= exp(-99999)) and source word NULL.
* C72 (HMM transition and lexical parameters are probability distributions): `C72_unseen_length_refuted`, `C72_unseen_word_refuted`. Refuted for unseen source lengths / words (mass = smoothing factor).
* C76 (Sentence-length probabilities are normal interval masses): `C76_length_zero_refuted`, `C76_negative_mean_refuted`. erf is a parameter (any increasing function into (-1,1)); reals instead of float.
* C80 (A hypothesis can be read back): `C80_predecessor_refuted`. Finding: with only empty target phrases so far obtainPredecessorHypData reports no predecessor (C80_predecessor_refuted).
* C81 (Translations respect the user's constraints and copy unknown words): `C81_check_alone_refuted`. Assumes constraints as produced by the annotation parser (C82), a vocabulary that gives back the strings entered, and no constraint containing the literal unknown-word mark. C81_check_alone_refuted: the check function alone accepts translations breaking a constraint after its first word.
* C82 (Annotated source sentences are parsed faithfully): `C82_blank_sentence_refuted`. Round trip, plain text, totality and well-formedness for any input proved. Finding proved: a non-empty blank-only sentence reads element 0 of an empty vector.
* C84 (Best translation and ordered N-best list): `C84_two_per_iteration_refuted`, `C84_stale_search_order_refuted`. I = 1 and room for the search space; findings: I = 2 not optimal, stale breadth-first flag.
* C85 (The word graph built by the decoder contains exactly derivations): `C85_best_first_order_refuted`. Proved for every model with appending extensions and states that determine extensions. Finding: best-first search leaves arcs out of topological order.
* C87 (Recombined hypotheses have the same future): `C87_several_language_models_refuted`. Holds with at most one language model; C87_several_language_models_refuted shows the failure of the shared history with two (finding).
* C88 (The decoder's estimate is the value of the best completion): `C88_distortion_estimate_refuted`. Exact integer scores; C88_distortion_estimate_refuted is a finding about LOCAL_TD_HEURISTIC.
* C92 (Prefix edit distance between sentences): `C92_cost_cache_blank_refuted`, `C92_nothing_typed_refuted`, `C92_hit_means_equal_refuted`. Integer costs, dc>0, non-empty words; the three known deviations are the _refuted theorems.
* C93 (Corrections extend the user's prefix): `C93_inner_blank_refuted`. Both PfsmEcm and PfsmEcmForWg variants; the deviation for inner blanks is the _refuted theorem.
* C94 (Incremental word-graph correction scores equal scores from scratch): `C94_continued_prefix_refuted`, `C94_shortened_prefix_refuted`, `C94_later_agreement_refuted`, `C94_initial_state_blank_refuted`. Proved for histories satisfying 'reusable'; refuted theorems show stale columns for continued prefixes, shortened prefixes and later agreement (no break in getValidProcPrefixVec), and that the initial state is charged for the typed blank. Scores are exact integers; pruned arcs are left out of the arc list.
* C95 (The word-graph path chosen for a prefix is optimal): `C95_path_scores_refuted`. Proved when all paths to a state have the same weighted word-graph score (e.g. weight 0); refuted otherwise: wgScoreForState keeps the score of the arc processed last.
* C96 (N-best corrections of a word graph): `C96_substate_score_refuted`, `C96_no_corrections_refuted`. Scores are exact integers (the code rounds to float keys). The completion scores and the words of the best completion are parameters (their computation is C55/C57). Refuted: the score of a position inside an arc uses the completion score of the arc's start; n=0 is undefined.
* C97 (IBM model 2 queries): `C97_alignment_score_refuted`. Floats as reals, log domain as LogNum.lg; sentence length model a parameter (C75). Refuted: calcLgProbForAlig scores the alignment shifted by one and omits the length probability.
* C101 (Merging sorted count files adds up the counts): `C101_empty_files_refuted`. Log arithmetic over the reals; C101_empty_files_refuted: with no records the tool reads element 0 of an empty vector (the shell script never merges empty files when a pair is usable: C102_runs).
* C103 (Filtering a sorted table): `C103_missing_key_refuted`. C103_missing_key_refuted is a defect of the tool; the training script only asks for keys that are in the table (used in C102).
* C105 (HMM expectation step computes the expectations of the smoothed HMM): `C105_first_null_states_refuted`. E-step = clamped relative joints over all state paths, both variants; refuted: NULL states of the first target word share the expectation of state n+1.
* C106 (HMM incremental EM over any history): `C106_null_rows_refuted`. Session simulation against the incremental-EM interpreter of HmmTrainSpec.v, plus batch training from any state; refuted: rows of NULL states are stored but never read, so shared rows hold too little. Real arithmetic; caches (C73) and length model (C75) apart.
* C108 (Phrase model counts: words in, counts out; training counts every extracted pair once): `C108_reserved_word_refuted`. HatTriePhraseTable (the default table) with integral counts; BRF estimation and segmentation-length tables are not modelled; the alignment file reader is not modelled. Refuted variant: a phrase containing <UNUSED_WORD> shares its count with another pair.
* C110 (A phrase table written to a file and read back has the same counts): `C110_empty_table_refuted`, `C110_separator_word_refuted`, `C110_empty_source_refuted`. Counts integral, printed with %.8f. Refuted variants: empty table (begin() walks past the end), the word |||, an empty source phrase.
* C111 (Numbers written to text files keep six significant digits): `C111_exact_refuted`. Doubles as exact rationals; atof's own rounding to double, infinities, NaN and -0 are left out. Refuted variant: values are not kept exactly.
* C112 (A word graph written to a file and read back is the same word graph): `C112_initial_score_refuted`, `C112_initial_final_refuted`, `C112_separator_refuted`, `C112_backward_refuted`. printOnlyUsefulStates=false. Refuted variants: initial-state score lost; final state without incoming arc lost; first word ||| without components; backward arc after pruning (out-of-range write in load).
* C114 (Alignment files are read back as they were printed): `C114_brace_word_refuted`. GIZA format printed and read back; C114_brace_word_refuted: a source word ({ breaks the entry. numReps is an exact rational (float in the code).
* C116 (Damaged alignment files never take an operation outside its matrices): `C116_damage_reported_refuted`, `C116_later_entries_refuted`. totality for any file contents; C116_damage_reported_refuted and C116_later_entries_refuted are findings.
* C118 (A container filled from an alignment file and printed compactly): `C118_counts_refuted`. Entries are storable (sentences of plain words without the opening brace token, matrix of matching size) and fewer than 2^31; C118_counts_refuted: file counts ignored. The 256-byte file name buffer (sprintf of a longer path overflows it) is not modelled.
* C120 (A container printed against the file it was filled from): `C120_transposed_refuted`. C120_transposed_refuted exhibits the loss with a transposed container.
* C121 (Word error rate counts the fewest word edits): `C121_identical_refuted`. edits = cheapest edit script with unit costs (C13's specification); ed itself is modelled row by row.
* C122 (The general text matcher counts the words in common): `C122_nothing_common_refuted`. std::sort is any permutation ordered by size; C122_order_irrelevant, C122_nothing_common_refuted.
* C123 (chrF lies between 0 and 1 and is 1 only for texts with the same n-grams): `C123_precision_refuted`. Exact rationals for float/double; the counting loops are those of bleu.cc (C37). C123_precision_refuted: s = a, r = abcd gives mean precision 4. calculate_chrf_file is not modelled.
* C124 (Batch MIRA returns the best evaluated average): `C124_weights_refuted`. Exact rationals; the scorer is any object with a background state. C124_weights_refuted: with no restarts, or a quality that is never positive (an error rate), the weights come back empty.
* C126 (Example order of batch MIRA): `C126_moves_refuted`. C126_moves_refuted: the shuffle draws rand()%k (not k+1), so the order always is one cycle: an example never keeps its position (with two examples they are always swapped).
* C128 (The minimum found is the best point tried): `C128_limit_refuted`. C128_limit_refuted: convergence in iteration MAX_IT is reported as DSO_NMAX_ERROR.
* C129 (Moves of the simplex): `C129_stale_refuted`. C129_stale_refuted: after a failed contraction the moved vertices other than the worst and the second worst keep the old values (step_by_step_dhs.c:303-333), and the search may stop as converged with a vertex of value 100 counted as 0.
* C130 (Fixed and free variables of the minimizer): `C130_too_many_refuted`. C130_too_many_refuted: gen_init_sol loops over initVals and reads fixedVarsBoolVec out of range.
* C131 (Merging an interactive translation with the typed prefix keeps the prefix and the words): `C131_split_word_refuted`, `C131_tab_refuted`. Model CatModel.merge_loop/robustMergeTransWithUserPref. Proved for all tab-free texts: prefix kept, words equal when the last prefix word is open or is a complete word of the answer. Refuted: 'the ho ' (completed word) with answer 'the house' gives 'the ho use'; with a tab in the prefix the typed characters are lost.
* C132 (Whatever the engine answers, the typed prefix is kept and shown): `C132_overread_refuted`, `C132_raw_tab_refuted`. Invariant over sessions, with all virtual calls as arbitrary functions that may differ per call. Preprocessing mode unconditional when defined; raw mode for tab-free texts. Well-definedness for a pre-processor giving single-spaced text; refuted otherwise: a prefix with several trailing blanks makes postprocWithCriticalError read beyond the end of the translation.
* C133 (A neutral pre/post-processor changes nothing): `C133_empty_prefix_refuted`, `C133_mark_refuted`. Proved for non-empty prefixes without '<' and NUL. Refuted: setPref("") puts a blank in front of the translation; a prefix containing <END_OF_PREF_MARK> cuts the text at the wrong place.
* C134 (Completion of the word being typed): `C134_completion_refuted`. Refuted part: one common first letter suffices for getWordCompletion, so 'ho'/'hxyz' completes with 'yz'.
* C135 (A trie is a map from key sequences): `C135_clear_refuted`. Any key and data types (Section variables, discharged). Refuted part: clear() leaves the data of the object's own node, so the first sequence inserted afterwards gives its first key the old data.
* C137 (The word predictor proposes the most frequent known word): `C137_clear_refuted`, `C137_empty_input_refuted`, `C137_empty_word_refuted`. Counts are natural numbers (Count is a float: no rounding modelled). Ties: equal counts overwrite each other in the map, one suffix remains per count (part of the statement). Refuted: clear() followed by new sentences still counts an old word; for an empty input the suffixes lack the first letter; an empty word is counted for the first letter.
* C139 (A model descriptor that is written is read back entry by entry): `C139_short_refuted`, `C139_no_library_refuted`. Proved for entries with a library name; refuted: a line of fewer than three words before a # is accepted as an entry (C139_short_refuted), an entry without library is lost (C139_no_library_refuted).
* C140 (The main model of a descriptor is the first entry whose status is main): `C140_parameters_refuted`, `C140_comment_refuted`. Proved when libraries have no parameters; refuted otherwise (C140_parameters_refuted) and for commented-out entries (C140_comment_refuted).
* C141 (The word-graph handler finds the word graph of a sentence, and survives print and load): `C141_lost_refuted`. Proved; refuted for the empty sentence and names with blanks (C141_lost_refuted).
* C142 (Segmentation-length probabilities are relative frequencies and survive print and load): `C142_bound_refuted`, `C142_constant_refuted`. Proved for lengths up to 100; refuted: length 101 passes the guard and reads or writes outside the arrays (C142_bound_refuted), the constant table is not a distribution and changes when reloaded (C142_constant_refuted).
* C143 (Language-model heuristics of forced and prefix decoding are exact): `C143_weighted_end_refuted`, `C143_no_features_refuted`, `C143_longer_refuted`, `C143_prefix_end_refuted`. Exact integer scores. Violations are stated as _refuted theorems. Refuted: end-of-sentence score not weighted, empty feature list reads back() of an empty vector, longer partial translations read outside, the prefix heuristic counts an end of sentence.
* C144 (Word completion in context proposes the most probable candidate): `C144_all_known_refuted`, `C144_four_grams_refuted`. Violations are stated as _refuted theorems. Refuted: suffixes with equal counts overwrite each other in the list, so a more probable word may not be considered; two words of context are not enough for 4-gram models.
* C145 (Interpolated phrase probabilities): `C145_range_refuted`, `C145_no_pairs_refuted`. Real arithmetic, rounding not modelled. Violations are stated as _refuted theorems. Refuted: weights outside [0,1] (set_lambda is unchecked) give NaN; 0/0 without pairs.
* C146 (Tuning of interpolation weights ends and never makes them worse): `C146_one_refuted`. Exact rationals between the %g round trips. The perplexity of the corpus is any partial function (None: THOT_ERROR). Violations are stated as _refuted theorems. Refuted: initial weights of 1 are returned as successful without looking at the corpus.
* C147 (A dictionary file gives each phrase pair the score of its last line): `C147_no_bars_refuted`, `C147_overwritten_refuted`, `C147_unreported_refuted`. Maps keep insertion order in the model, std::map order is not modelled. Violations are stated as _refuted theorems. Refuted: malformed lines are inserted with a score never assigned and may overwrite entries; the error code is ignored.
* C148 (The on-the-fly dictionary holds what was added last since the last clearing): `C148_unknown_refuted`. Violations are stated as _refuted theorems. Refuted: unknown pairs (score 0) are preferred to known pairs with log-probabilities.
* C149 (Correcting a whole sentence keeps what the user typed): `C149_empty_output_refuted`, `C149_empty_word_refuted`, `C149_one_refuted`. Composed with C93 for the error correction model. Violations are stated as _refuted theorems. Refuted: empty output sentence and empty last typed word read outside; never more than one correction.
* C151 (All JSON tags given in sentence order take effect): `C151_over_the_end_refuted`, `C151_lost_tag_refuted`, `C151_other_element_refuted`
* C153 (Online weight training assigns the updater's weights in feature order, and keeps the weights without hypotheses): `C153_empty_nbest_next_refuted`, `C153_surplus_weights_refuted`
* C155 (Online learning counts each phrase pair once): `C155_uneven_refuted`, `C155_no_iterations_refuted`. Holds for E dividing R (default E=1, R=0); refuted otherwise: statistics discarded too early are counted twice; E=0 divides by zero. Extraction results arbitrary at each visit; sample numbers below 2^31.
* C156 (Schedule of the online learning iterations): `C156_uneven_refuted`. Refuted when E does not divide R: with E=2, R=3 a new sentence pair is not learned from on arrival.
* C157 (Scripts of alignment operations): `C157_unterminated_refuted`, `C157_missing_file_refuted`, `C157_unknown_operation_refuted`. Scripts of terminated lines naming existing files other than the output file. Refuted: an unterminated last line loses its last character and is rejected; a missing file empties the output file; an unknown operation replaces the alignments by what the output file had.
* C159 (Scripts of alignment operations on a container): `C159_failure_unreported_refuted`. Through C119. Refuted: a step whose file does not exist ends the script without being reported, and the result so far is written with exit status 0.
