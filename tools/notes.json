{
"C01":{"note": "Round trip proved for all phrases with words below 254^3; C01_unbounded_words_refuted shows the collision above it."},
"C02":{"note": "Injectivity and disjointness proved; C02_empty_target_refuted records the aliasing for an empty target phrase."},
"C03":{"note": "Round trip, injectivity, freshness of the null key, order preservation."},
"C04":{"note": "Also covers the bit-exact float codec of the same table."},
"C05":{"note": "Over every history of setter calls; t=2^32-1 wraps and returns nothing (C05_last_word_lost_refuted)."},
"C06":{"note": "All positions below 32*words; also the unsigned long conversions."},
"C07":{"note": "Pointwise on every bit; == iff all bits agree."},
"C08":{"note": "Numeric order, hence strict total order."},
"C09":{"note": "operator++ proved; operator+ proved under the no-lost-carry side condition and refuted without it (finding)."},
"C10":{"note": "Every shift amount (also >= the size); count out of range reads past the array (refuted)."},
"C100":{"note": "Hypothesis thresholds_inactive2: no 1e-6 floor active on the trained pairs (EM guarantee does not hold for floored counts). Unweighted (reported) and weighted versions."},
"C101":{"note": "Log arithmetic over the reals; C101_empty_files_refuted: with no records the tool reads element 0 of an empty vector (the shell script never merges empty files when a pair is usable: C102_runs)."},
"C102":{"note": "IBM model 2 (which contains the lexical table of model 1); the filter step is included; the script's final pruning is C104, not part of this theorem."},
"C103":{"note": "C103_missing_key_refuted is a defect of the tool; the training script only asks for keys that are in the table (used in C102)."},
"C104":{"note": "Sorting of a source's targets modelled as any permutation sorted by count."},
"C105":{"note": "E-step = clamped relative joints over all state paths, both variants; refuted: NULL states of the first target word share the expectation of state n+1."},
"C106":{"note": "Session simulation against the incremental-EM interpreter of HmmTrainSpec.v, plus batch training from any state; refuted: rows of NULL states are stored but never read, so shared rows hold too little. Real arithmetic; caches (C73) and length model (C75) apart."},
"C107":{"note": "From C106 and C72: rows of trained lengths are complete."},
"C108":{"note": "HatTriePhraseTable (the default table) with integral counts; BRF estimation and segmentation-length tables are not modelled; the alignment file reader is not modelled. Refuted variant: a phrase containing <UNUSED_WORD> shares its count with another pair.", "status": "proved"},
"C109":{"note": "Exact real logarithms instead of double.", "status": "proved"},
"C11":{"note": "All histories of push, [], pop and clear; generic in the key order."},
"C110":{"note": "Counts integral, printed with %.8f. Refuted variants: empty table (begin() walks past the end), the word |||, an empty source phrase.", "status": "proved"},
"C111":{"note": "Doubles as exact rationals; atof's own rounding to double, infinities, NaN and -0 are left out. Refuted variant: values are not kept exactly.", "status": "proved"},
"C112":{"note": "printOnlyUsefulStates=false. Refuted variants: initial-state score lost; final state without incoming arc lost; first word ||| without components; backward arc after pruning (out-of-range write in load).", "status": "proved"},
"C113":{"note": "Exact arithmetic instead of double.", "status": "proved"},
"C114":{"note": "GIZA format printed and read back; C114_brace_word_refuted: a source word ({ breaks the entry. numReps is an exact rational (float in the code)."},
"C115":{"note": "all six operations, both transposition flags, zipped over the two files; output read back by C114."},
"C116":{"note": "totality for any file contents; C116_damage_reported_refuted and C116_later_entries_refuted are findings."},
"C117":{"note": "second format."},
"C118":{"note": "Entries are storable (sentences of plain words without the opening brace token, matrix of matching size) and fewer than 2^31; C118_counts_refuted: file counts ignored. The 256-byte file name buffer (sprintf of a longer path overflows it) is not modelled."},
"C119":{"note": "chain composes op_spec (C115) over the operands of the pair; kept = first entry of the pair, then chain."},
"C12":{"note": "find is completely characterised, also size and height; an interior prefix that was never inserted is found with default data."},
"C120":{"note": "C120_transposed_refuted exhibits the loss with a transposed container."},
"C121":{"note": "edits = cheapest edit script with unit costs (C13's specification); ed itself is modelled row by row."},
"C122":{"note": "std::sort is any permutation ordered by size; C122_order_irrelevant, C122_nothing_common_refuted."},
"C123":{"note": "Exact rationals for float/double; the counting loops are those of bleu.cc (C37). C123_precision_refuted: s = a, r = abcd gives mean precision 4. calculate_chrf_file is not modelled."},
"C124":{"note": "Exact rationals; the scorer is any object with a background state. C124_weights_refuted: with no restarts, or a quality that is never positive (an error rate), the weights come back empty."},
"C125":{"note": "Exact rationals; -DBL_MAX is below every score."},
"C126":{"note": "C126_moves_refuted: the shuffle draws rand()%k (not k+1), so the order always is one cycle: an example never keeps its position (with two examples they are always swapped)."},
"C127":{"note": "Exact rationals; the offsets pn, qn of the initial simplex are arbitrary parameters (they are irrational in the code); the file is the list of its values."},
"C128":{"note": "C128_limit_refuted: convergence in iteration MAX_IT is reported as DSO_NMAX_ERROR."},
"C129":{"note": "C129_stale_refuted: after a failed contraction the moved vertices other than the worst and the second worst keep the old values (step_by_step_dhs.c:303-333), and the search may stop as converged with a vertex of value 100 counted as 0."},
"C13":{"note": "Generic over the element type and arbitrary (even element-dependent) costs; scores are exact integers, floating-point rounding not modelled."},
"C130":{"note": "C130_too_many_refuted: gen_init_sol loops over initVals and reads fixedVarsBoolVec out of range."},
"C131":{"note": "Model CatModel.merge_loop/robustMergeTransWithUserPref. Proved for all tab-free texts: prefix kept, words equal when the last prefix word is open or is a complete word of the answer. Refuted: 'the ho ' (completed word) with answer 'the house' gives 'the ho use'; with a tab in the prefix the typed characters are lost."},
"C132":{"note": "Invariant over sessions, with all virtual calls as arbitrary functions that may differ per call. Preprocessing mode unconditional when defined; raw mode for tab-free texts. Well-definedness for a pre-processor giving single-spaced text; refuted otherwise: a prefix with several trailing blanks makes postprocWithCriticalError read beyond the end of the translation."},
"C133":{"note": "Proved for non-empty prefixes without '<' and NUL. Refuted: setPref(\"\") puts a blank in front of the translation; a prefix containing <END_OF_PREF_MARK> cuts the text at the wrong place."},
"C134":{"note": "Refuted part: one common first letter suffices for getWordCompletion, so 'ho'/'hxyz' completes with 'yz'."},
"C135":{"note": "Any key and data types (Section variables, discharged). Refuted part: clear() leaves the data of the object's own node, so the first sequence inserted afterwards gives its first key the old data."},
"C136":{"note": "Iterator modelled as its stack of nodes; enumeration proved equal to the post-order listing. countSparseNodes, erase (does not compile when instantiated) and the copy constructor (loses the keys) not modelled."},
"C137":{"note": "Counts are natural numbers (Count is a float: no rounding modelled). Ties: equal counts overwrite each other in the map, one suffix remains per count (part of the statement). Refuted: clear() followed by new sentences still counts an old word; for an empty input the suffixes lack the first letter; an empty word is counted for the first letter."},
"C138":{"note": "Proved for all names."},
"C139":{"note": "Proved for entries with a library name; refuted: a line of fewer than three words before a # is accepted as an entry (C139_short_refuted), an entry without library is lost (C139_no_library_refuted)."},
"C14":{"note": "Counts belong to one cheapest script; the weighted-sum form is for constant per-operation costs as in _editDist."},
"C140":{"note": "Proved when libraries have no parameters; refuted otherwise (C140_parameters_refuted) and for commented-out entries (C140_comment_refuted)."},
"C141":{"note": "Proved; refuted for the empty sentence and names with blanks (C141_lost_refuted)."},
"C142":{"note": "Proved for lengths up to 100; refuted: length 101 passes the guard and reads or writes outside the arrays (C142_bound_refuted), the constant table is not a distribution and changes when reloaded (C142_constant_refuted)."},
"C143":{"note": "Exact integer scores. Violations are stated as _refuted theorems. Refuted: end-of-sentence score not weighted, empty feature list reads back() of an empty vector, longer partial translations read outside, the prefix heuristic counts an end of sentence."},
"C144":{"note": "Violations are stated as _refuted theorems. Refuted: suffixes with equal counts overwrite each other in the list, so a more probable word may not be considered; two words of context are not enough for 4-gram models."},
"C145":{"note": "Real arithmetic, rounding not modelled. Violations are stated as _refuted theorems. Refuted: weights outside [0,1] (set_lambda is unchecked) give NaN; 0/0 without pairs."},
"C146":{"note": "Exact rationals between the %g round trips. The perplexity of the corpus is any partial function (None: THOT_ERROR). Violations are stated as _refuted theorems. Refuted: initial weights of 1 are returned as successful without looking at the corpus."},
"C147":{"note": "Maps keep insertion order in the model, std::map order is not modelled. Violations are stated as _refuted theorems. Refuted: malformed lines are inserted with a score never assigned and may overwrite entries; the error code is ignored."},
"C148":{"note": "Violations are stated as _refuted theorems. Refuted: unknown pairs (score 0) are preferred to known pairs with log-probabilities."},
"C149":{"note": "Composed with C93 for the error correction model. Violations are stated as _refuted theorems. Refuted: empty output sentence and empty last typed word read outside; never more than one correction."},
"C15":{"note": "Non-empty y proved (value for non-negative, operations for positive deletion cost); the empty-y exception is proved as a refutation."},
"C155":{"note": "Holds for E dividing R (default E=1, R=0); refuted otherwise: statistics discarded too early are counted twice; E=0 divides by zero. Extraction results arbitrary at each visit; sample numbers below 2^31.", "status": "proved"},
"C156":{"note": "Refuted when E does not divide R: with E=2, R=3 a new sentence pair is not learned from on arrival.", "status": "proved"},
"C157":{"note": "Scripts of terminated lines naming existing files other than the output file. Refuted: an unterminated last line loses its last character and is rejected; a missing file empties the output file; an unknown operation replaces the alignments by what the output file had.", "status": "proved"},
"C158":{"note": "By C157 and C115; the combination of two entries is GizaSpec.combined.", "status": "proved"},
"C159":{"note": "Through C119. Refuted: a step whose file does not exist ends the script without being reported, and the result so far is written with exit status 0.", "status": "proved"},
"C16":{"note": "Links = non-zero cells. -= is refuted: it never removes a link."},
"C17":{"note": ""},
"C18":{"note": "Termination with an explicit iteration bound, bounds, and the closure properties that determine which union links are left out. Argument assumed not to alias *this."},
"C19":{"note": "Import proved; export characterized exactly and the round trip refuted (values come back reduced by one)."},
"C20":{"note": "One side of the vocabulary; source and target code are identical."},
"C21":{"note": "Words non-empty without blank, newline, NUL; fewer than 2^31 words; any map iteration order. Gapped-file index collision proved."},
"C22":{"note": ""},
"C23":{"note": "Any separator character FS."},
"C24":{"note": "The defect on unterminated last lines is proved for every such file."},
"C25":{"note": "Proved for the in-memory table after every history. Finding: addSrcTrgInfo for a source phrase not in the table uses an end() iterator as key (C25_unknown_source_refuted). Counts are integers; float rounding not modelled."},
"C26":{"note": "Counts integral, division exact (Q)."},
"C27":{"note": "Every joint query goes through getSrcTrgKey; size() grows by exactly one when t was unknown."},
"C28":{"note": "Integral counts. Finding: LevelDB addTableEntry overwrites the target total (C28_leveldb_overwrites_refuted)."},
"C29":{"note": "In-memory table: LexTabModel (floats as bit patterns, OrderedVector as finite map, justified by C11). LevelDB half in PropertiesCodec. Finding: found flag of in-memory getTransForTarget."},
"C30":{"note": "16-byte little-endian records; loader's unchecked reads are None when the file ends inside a record."},
"C31":{"note": "Files as byte strings read through the AwkInputStream model; handler may have been used before; finding: short count file."},
"C32":{"note": "Wire as byte list, each recv bounded by what has arrived; findings: fragmentation, unnoticed write failure."},
"C33":{"note": "Single bounded stack: best-k selection, order, ties, result flag, mixed histories, top/last."},
"C34":{"note": "Safety for every history; uniqueness/optimality/completeness under the stated class condition; refutations for the default class function and for setMaxStackSize shrinking."},
"C35":{"note": "pop/top/removeLast on every reachable multi-stack; findings for top and removeLast in best-first mode are proved as _refuted."},
"C36":{"note": "Indices are 0,1,2,... by first use; stable; scores are the last given."},
"C37":{"note": "prec_n equals the multiset intersection for all sentences and n; corpus accumulation; float rounding of the accumulators not modelled."},
"C38":{"note": "Small-step concurrent model, any number of threads; every interleaving; fresh generated names; the lock holder always finishes."},
"C39":{"note": "Concurrent model of all decoder operations that lock. Exclusion, same-user exclusion and slot disjointness proved over all interleavings; findings: release_user_data frees data under a running translation and leaves the user registered, per_user_mut grows while locked, clearTrans does not take user_id_to_idx_mut."},
"C40":{"note": "Progress, finiteness of schedules, completion of all calls under every maximal schedule, no lost wakeup, without relying on spurious wakeups; the failing initUserPars leak and its permanent blocking proved."},
"C41":{"note": "FIFO refinement for both usages, save/load continuation, three findings (load into zero/bounded matrix, mixed use)"},
"C42":{"note": "Findings (_refuted): a whole-target span is only accepted when all source words are covered, so tight pairs of e.g. one-word targets are lost; an empty source sentence yields an empty source phrase with weight 0/0; sentences of 101+ words leave the caller's vector with the previous result."},
"C43":{"note": "Finding (_refuted): the gap test is inverted/off by one: consistent pairs with two adjacent unaligned target words between linked ones are lost."},
"C44":{"note": "Maximum over all paths; with a magnitude bound it is exactly the best completion; topological order needed (C44_unordered_refuted)."},
"C45":{"note": "Termination, soundness, optimality, sufficient condition for the stack limit not to matter; C45_final_with_successors_refuted shows the hypothesis on final states is needed."},
"C46":{"note": "Adjacency for every history incl. pruning; reordering gives a topological order but does not renumber the adjacency lists (C46_order_refuted, finding)."},
"C47":{"note": "Useful states, renumbering, preservation of complete paths both ways; C47_unreachable_final_refuted is a finding."},
"C48":{"note": "Stable descending sort, threshold pruning, best element, for all histories."},
"C49":{"note": "States, sentence score and product form for any n-gram scorer; order 0 and 1 included."},
"C50":{"note": "Distribution, exact sum for seen histories, positivity, BOS stripping. Findings: default weights cover only order 3 (out-of-bounds read otherwise); mass of unseen histories is lost (sum 1/2 on an untrained model)."},
"C51":{"note": "Counts equal totals at the code level and at the string level; history count = sum of joint counts. Counts are exact rationals (C++ float through exp/log)."},
"C52":{"note": "Over the reals (no rounding); uses the standard library's axioms of the reals."},
"C53":{"note": "Single-word defect proved for every single word."},
"C54":{"note": ""},
"C55":{"note": "Findings: in-memory getEntriesForTarget dereferences begin() of an empty map; LevelDB flag counts visited keys."},
"C56":{"note": "Score formula over the reals (standard-library real axioms); float rounding not modelled; sysWords>0 needed."},
"C57":{"note": "Two undefined-behaviour findings as _refuted theorems."},
"C58":{"note": "Initial score counted twice when non-zero (C58_initial_score_refuted, finding)."},
"C59":{"note": "Finding (_refuted): logNumbPermsOfTwoElems(J,0) returns 1 where the logarithm of the number of arrangements is 0."},
"C60":{"note": "Finding (_refuted): triang_cdf returns 0 above its support instead of 1. norm_cdf (erf) is not modelled."},
"C61":{"note": "Stack-based iterator modelled literally."},
"C62":{"note": "Holds for histories in which addTableEntry is not given a new word twice in one history. Findings: repeated new word gets two codes; loading a vocabulary does not advance the code generator, so the next new word collides."},
"C63":{"note": "Round trip proved; findings: repeated new history word is lost on load into a fresh program; a blank line sets the order to 2^32-2."},
"C64":{"note": "Proved for corpora without blank lines. Findings: a blank line counts the previous sentence again; a blank first line adds an uninitialised value."},
"C65":{"note": "Proved for non-empty histories. Findings: nothing is ever returned for the empty history; cTrg starts at -99999 and compares the first word."},
"C66":{"note": "Findings: calcLgProbForAlig scores the alignment with every source position decreased by one (C66_alignment_score_refuted); a target word without any translation inherits the source position of the previous word (C66_unknown_word_refuted). Real arithmetic."},
"C67":{"note": "Real arithmetic; thresholds 1e-6 and 0.1 are part of the specification estep."},
"C68":{"note": "Weights must be positive (with weight 0 the program mixes -infinity and the marker -99999, outside the model); anji matrix size bound: unlimited or 0."},
"C69":{"note": "Hypothesis thresholds_inactive: every probability and weighted expectation on the range is at least 1e-6."},
"C70":{"note": "Refuted parts: underflow (all paths <= exp(-99999)) and source word NULL."},
"C72":{"note": "Refuted for unseen source lengths / words (mass = smoothing factor)."},
"C76":{"note": "erf is a parameter (any increasing function into (-1,1)); reals instead of float."},
"C80":{"note": "Finding: with only empty target phrases so far obtainPredecessorHypData reports no predecessor (C80_predecessor_refuted)."},
"C81":{"note": "Assumes constraints as produced by the annotation parser (C82), a vocabulary that gives back the strings entered, and no constraint containing the literal unknown-word mark. C81_check_alone_refuted: the check function alone accepts translations breaking a constraint after its first word."},
"C82":{"note": "Round trip, plain text, totality and well-formedness for any input proved. Finding proved: a non-empty blank-only sentence reads element 0 of an empty vector."},
"C83":{"note": "Search loop over the multi-stack container model; scores are integers (no float rounding); translation model abstract."},
"C84":{"note": "I = 1 and room for the search space; findings: I = 2 not optimal, stale breadth-first flag."},
"C85":{"note": "Proved for every model with appending extensions and states that determine extensions. Finding: best-first search leaves arcs out of topological order."},
"C86":{"note": "Exact integer scores; vocabularies identified; custom and on-the-fly features out of the model."},
"C87":{"note": "Holds with at most one language model; C87_several_language_models_refuted shows the failure of the shared history with two (finding)."},
"C88":{"note": "Exact integer scores; C88_distortion_estimate_refuted is a finding about LOCAL_TD_HEURISTIC."},
"C89":{"note": "W<1 is given by its logarithm, at most 0; W at least 1 by its integer part."},
"C90":{"note": "C77-C89 put together: SearchModel run on the hypotheses of DecModel, the features of FeatModel and the heuristics of HeurModel (PbModel.v). Scores are exact integers. Best-first search requires the local heuristic to bound the gains (it does not in general: other features, constraints); proved as hypothesis, met in C90_nonvacuous. C90_numberings_exist shows that the numberings of hypotheses and states used by the model's containers exist.", "status": "proved"},
"C91":{"note": "C85 instantiated with the phrase-based model of C90; words are those of getTransInPlainTextVec.", "status": "proved"},
"C92":{"note": "Integer costs, dc>0, non-empty words; the three known deviations are the _refuted theorems."},
"C93":{"note": "Both PfsmEcm and PfsmEcmForWg variants; the deviation for inner blanks is the _refuted theorem."},
"C94":{"note": "Proved for histories satisfying 'reusable'; refuted theorems show stale columns for continued prefixes, shortened prefixes and later agreement (no break in getValidProcPrefixVec), and that the initial state is charged for the typed blank. Scores are exact integers; pruned arcs are left out of the arc list.", "status": "proved"},
"C95":{"note": "Proved when all paths to a state have the same weighted word-graph score (e.g. weight 0); refuted otherwise: wgScoreForState keeps the score of the arc processed last.", "status": "proved"},
"C96":{"note": "Scores are exact integers (the code rounds to float keys). The completion scores and the words of the best completion are parameters (their computation is C55/C57). Refuted: the score of a position inside an arc uses the completion score of the arc's start; n=0 is undefined.", "status": "proved"},
"C97":{"note": "Floats as reals, log domain as LogNum.lg; sentence length model a parameter (C75). Refuted: calcLgProbForAlig scores the alignment shifted by one and omits the length probability."},
"C98":{"note": "Reached tables: any session of additions/incremental training followed by batch rounds."},
"C99":{"note": "Both tables share the generic development NdProofs/NdTrain; the cells of a pair are re-counted (replaced) when trained again."}
}
