{"id": "C01", "title": "Phrase-table key encoding round-trips", "statement": "Encoding a phrase (vector of word indices) to the byte-string key of the HatTrie/LevelDB phrase tables and decoding it returns the same phrase whenever every word index is below 254^3; the produced bytes are all non-zero. At and above 254^3 distinct words share a key.", "quantifier": "all phrases of any length over all word indices", "why_tests_cant": "the key space is infinite and the failure boundary (16387064) is far outside any fixture", "anchors": ["src/phrase_models/HatTriePhraseTable.cc: vectorToKey, keyToVector", "src/phrase_models/LevelDbPhraseTable.cc: vectorToKey, keyToVector"]}
{"id": "C02", "title": "Phrase-table keys never alias", "statement": "In the single-trie phrase tables the three record kinds (source count, target count, joint count) live under different keys, and two different records of the same kind live under different keys, as long as phrases avoid the reserved word 2, words are below 254^3 and the target phrase is non-empty. With an empty target phrase the joint record aliases the source record.", "quantifier": "all pairs of phrase pairs", "why_tests_cant": "pairwise disjointness over an infinite key space", "anchors": ["src/phrase_models/HatTriePhraseTable.cc: getSrc, getTrgSrc, addSrcTrgInfo", "src/phrase_models/LevelDbPhraseTable.cc: getSrc, getTrgSrc"]}
{"id": "C03", "title": "N-gram table key encoding is injective and order preserving", "statement": "The LevelDB n-gram table's key for an n-gram (length byte followed by three base-254 digits per word) decodes back to the n-gram, different n-grams get different keys (including the special key of the empty n-gram), and for n-grams of equal length the byte order of keys is the lexicographic order of word indices.", "quantifier": "all n-grams of up to 253 words with word indices below 254^3", "why_tests_cant": "order preservation is what makes range scans complete; must hold for every pair of n-grams", "anchors": ["src/incr_models/LevelDbNgramTable.cc: vectorToKey, keyToVector, getEntriesForSource"]}
{"id": "C04", "title": "Lexical table key encoding covers every 32-bit word", "statement": "The five-digit base-254 encoding used by the LevelDB lexical table decodes back to the same sequence for every sequence of 32-bit word indices and preserves lexicographic order.", "quantifier": "all sequences of 32-bit words", "why_tests_cant": "2^32 words per position", "anchors": ["src/sw_models/IncrLexLevelDbTable.cc: vectorToKey, keyToVector"]}
{"id": "C05", "title": "LevelDB range scan returns exactly the entries of a target word", "statement": "getTransForTarget(t) of the LevelDB lexical table returns exactly the set of source words s with a stored numerator for (s,t), for every t < 2^32-1 and every table content; for t = 2^32-1 the scan bound wraps around and it returns nothing.", "quantifier": "all table contents and all t", "why_tests_cant": "exactness over every possible key set depends on the order of the encoding", "anchors": ["src/sw_models/IncrLexLevelDbTable.cc: getTransForTarget"]}
{"id": "C06", "title": "Bitset single-bit operations have frame laws", "statement": "set(n), reset(n) and set(n,v) change bit n as requested and no other bit; reset() clears all bits; test(n) reads the bit.", "quantifier": "all bitset sizes, contents and in-range positions", "why_tests_cant": "every bit position in every word", "anchors": ["src/nlp_common/Bitset.h: set, reset, test"]}
{"id": "C07", "title": "Bitset logical operators are pointwise", "statement": "After a|=b, a&=b, a^=b every bit of a is the or/and/xor of the previous bits; ~/flip-free equality == holds exactly when all stored words agree.", "quantifier": "all bitset sizes and contents", "why_tests_cant": "2^N contents", "anchors": ["src/nlp_common/Bitset.h: operator|=, operator&=, operator^=, operator=="]}
{"id": "C08", "title": "Bitset order is a strict total order equal to the numeric order", "statement": "operator< (and >) compare the bitsets as unsigned binary numbers, hence are irreflexive, transitive and trichotomous with ==, which is what std::map keyed by coverage requires.", "quantifier": "all triples of bitsets of equal size", "why_tests_cant": "strict weak ordering must hold for every triple", "anchors": ["src/nlp_common/Bitset.h: operator<, operator>"]}
{"id": "C09", "title": "Bitset increment and addition", "statement": "operator++ adds one modulo 2^(32*words). operator+ is claimed to add, but its carry rule loses carries; it equals addition only when no word addition overflows.", "quantifier": "all bitset contents", "why_tests_cant": "carry chains occur only at word boundaries", "anchors": ["src/nlp_common/Bitset.h: operator++, operator+"]}
{"id": "C10", "title": "Bitset right shift and count", "statement": "a>>=k moves bit i+k to bit i and fills with zeros for every k smaller than the number of stored bits; count(J) is the number of set bits below J.", "quantifier": "all contents and all shift amounts", "why_tests_cant": "word/bit boundary combinations are unbounded in N", "anchors": ["src/nlp_common/Bitset.h: operator>>=, count"]}
{"id": "C11", "title": "OrderedVector is a sorted finite map", "statement": "After any sequence of push/insert, operator[] and clear operations the stored pairs are strictly increasing in key, findPtr(k) returns the value last pushed for k and nothing if k was never pushed, other keys are unaffected, and size() is the number of distinct keys.", "quantifier": "all operation sequences over all keys", "why_tests_cant": "arbitrary histories; binary search correctness needs the sortedness invariant", "anchors": ["src/nlp_common/OrderedVector.h: insert, findIndex, findPtr, operator[], size"]}
{"id": "C12", "title": "TrieVecs finds what was inserted", "statement": "After any sequence of inserts, find(k) for a non-empty k returns the data last inserted under k; inserting under k does not change the data found under any other inserted key; find fails exactly when k is not a prefix of any inserted key; size() is one plus the number of distinct non-empty prefixes of inserted keys.", "quantifier": "all insertion histories over all key sequences", "why_tests_cant": "arbitrary key sets with shared prefixes", "anchors": ["src/nlp_common/TrieVecs.h: insert, find, size"]}
{"id": "C13", "title": "Edit distance is the cheapest edit script", "statement": "calculateEditDist(x,y) equals the minimum, over all ways of transforming x into y by hits, substitutions, insertions and deletions, of the total weighted cost, for all operation costs.", "quantifier": "all pairs of sequences and all non-negative costs", "why_tests_cant": "optimality quantifies over exponentially many scripts", "anchors": ["src/error_correction/_editDist.h: calculateEditDist, editDistForIncompSubstr", "src/error_correction/EditDistForVec.h"]}
{"id": "C14", "title": "Edit operation counts match the distance", "statement": "calculateEditDistOps reports counts of hits, insertions, substitutions and deletions that satisfy hits+subs+dels=|x|, hits+subs+ins=|y| and whose weighted sum is exactly the returned distance.", "quantifier": "all pairs of sequences and costs", "why_tests_cant": "traceback must agree with the DP table for every input", "anchors": ["src/error_correction/_editDist.h: calculateEditDistOps"]}
{"id": "C15", "title": "Prefix edit distance ignores the untranslated tail", "statement": "calculateEditDistPrefix(x,y) with a non-empty y is the minimum over all prefixes x' of x of the edit distance between x' and y. For an empty y the code charges the deletion of all of x instead of 0.", "quantifier": "all pairs of sequences and non-negative costs", "why_tests_cant": "minimum over all prefixes and scripts", "anchors": ["src/error_correction/EditDistForStr.cc, EditDistForVec.h: calculateEditDistPrefix"]}
{"id": "C16", "title": "Alignment matrix set operations", "statement": "For matrices of equal dimensions &=, |=, ^= compute intersection, union and symmetric difference of the links; for different dimensions they leave the matrix unchanged. operator-= is not set difference: links shared with the argument survive.", "quantifier": "all matrices and all dimensions", "why_tests_cant": "2^(I*J) matrices", "anchors": ["src/nlp_common/WordAligMatrix.cc: operator&=, operator|=, operator^=, operator-="]}
{"id": "C17", "title": "Alignment transpose is an involution", "statement": "transpose exchanges rows and columns (link (i,j) becomes (j,i)), swaps the dimensions, and applied twice restores the matrix.", "quantifier": "all matrices", "why_tests_cant": "all dimensions", "anchors": ["src/nlp_common/WordAligMatrix.cc: transpose"]}
{"id": "C18", "title": "Symmetrization stays between intersection and union", "statement": "symmetr1, symmetr2 and growDiagFinal terminate and, for matrices of equal dimensions, return a link set containing the intersection and contained in the union of the two input alignments.", "quantifier": "all pairs of alignment matrices", "why_tests_cant": "the iterative growth can take arbitrarily many rounds", "anchors": ["src/nlp_common/WordAligMatrix.cc: symmetr1, symmetr2, growDiagFinal, ijInNeighbourhood"]}
{"id": "C19", "title": "Alignment vector import/export", "statement": "putAligVec(v) creates exactly the links (v[j]-1,j) for v[j]>0. getAligVec returns for every column the 0-based row of the linked row (0 when unaligned or linked to the first row) rather than the 1-based value that putAligVec accepts, so put followed by get is not the identity.", "quantifier": "all alignment vectors and matrices", "why_tests_cant": "must hold for every vector", "anchors": ["src/nlp_common/WordAligMatrix.cc: putAligVec, getAligVec"]}
{"id": "C20", "title": "Vocabulary indices are a bijection", "statement": "Starting from an empty vocabulary, after any sequence of addSrcSymbol calls distinct words have distinct indices, a word keeps its index forever, wordIndexToSrcString inverts stringToSrcWordIndex on known words, and unknown words map to index 1 (UNK). The same holds for the target side.", "quantifier": "all histories of symbol additions", "why_tests_cant": "arbitrary histories", "anchors": ["src/nlp_common/SingleWordVocab.cc: addSrcSymbol, stringToSrcWordIndex, wordIndexToSrcString"]}
{"id": "C21", "title": "Vocabulary file round trip", "statement": "Printing a vocabulary and loading it restores the same word/index mapping, when words are non-empty and contain no blanks or newlines. After loading a vocabulary file whose indices are not 0..n-1, adding a symbol can assign an index already in use.", "quantifier": "all vocabularies", "why_tests_cant": "all word sets", "anchors": ["src/nlp_common/SingleWordVocab.cc: loadGIZASrcVocab, printSrcVocab, addSrcSymbol"]}
{"id": "C22", "title": "Sentence tokenization round-trips", "statement": "Joining a vector of non-empty blank-free words with stringVectorToString and splitting with stringToStringVector returns the same vector; splitting any string yields only non-empty blank-free tokens.", "quantifier": "all word vectors and all strings", "why_tests_cant": "all strings", "anchors": ["src/nlp_common/StrProcUtils.cc: stringToStringVector, stringVectorToString"]}
{"id": "C23", "title": "awk-style field access", "statement": "For every line the number of fields equals the number of maximal blank-free runs and dollar(k) is the k-th of them, dollar(0) the whole line and dollar(k) for k>NF the empty string.", "quantifier": "all lines", "why_tests_cant": "all strings incl. leading/trailing/multiple blanks", "anchors": ["src/nlp_common/AwkInputStream.cc: get_NF, retrieveField, dollar"]}
{"id": "C24", "title": "Line reading loses the last character of an unterminated file", "statement": "getln returns the successive lines of a file whose every line is newline terminated; if the last line is not newline terminated its last character is dropped.", "quantifier": "all file contents", "why_tests_cant": "all byte streams", "anchors": ["src/nlp_common/AwkInputStream.cc: getln"]}
{"id": "C25", "title": "Phrase table stores what was added", "statement": "In the in-memory phrase table, after addTableEntry(s,t,inf) the source count of s and the joint count of (s,t) are exactly the given ones, the target count of t is increased by the given one, and all other counts are unchanged; incrCountsOfEntry(s,t,c) increases the three counts by c and nothing else.", "quantifier": "all tables and all phrase pairs", "why_tests_cant": "frame conditions over all other keys and all histories", "anchors": ["src/phrase_models/StlPhraseTable.cc: addTableEntry, incrCountsOfEntry, addSrcInfo, addTrgInfo, addSrcTrgInfo"]}
{"id": "C26", "title": "Phrase table marginals equal summed joint counts", "statement": "If a table is built only by incrCountsOfEntry from empty, then for every s the source count equals the sum over t of joint counts and symmetrically for targets, so the conditional probabilities p(t|s) of the seen pairs sum to one.", "quantifier": "all histories of increments", "why_tests_cant": "arbitrary training histories", "anchors": ["src/phrase_models/StlPhraseTable.cc: incrCountsOfEntry, pTrgGivenSrc"]}
{"id": "C27", "title": "Phrase table queries are not read-only but value preserving", "statement": "Joint-count queries may create a zero-count target entry (growing size()), yet never change the value any count query returns.", "quantifier": "all tables and query sequences", "why_tests_cant": "interference of reads on all later reads", "anchors": ["src/phrase_models/StlPhraseTable.cc: getSrcTrgKey, cSrcTrg, infSrcTrg"]}
{"id": "C28", "title": "Phrase table backends agree", "statement": "For integral counts, words below 254^3 that avoid the reserved word, and non-empty targets, the in-memory, HatTrie and LevelDB phrase tables return the same source, joint and target counts (and found flags) after the same sequence of operations, except that LevelDB's addTableEntry overwrites the target count instead of accumulating it.", "quantifier": "all histories of addTableEntry, incrCountsOfEntry, addSrcInfo, addSrcTrgInfo, clear and queries, all phrases", "why_tests_cant": "agreement must hold after every history and for every pair of phrases whose byte keys could collide", "anchors": ["src/phrase_models/StlPhraseTable.cc", "src/phrase_models/HatTriePhraseTable.cc", "src/phrase_models/LevelDbPhraseTable.cc"]}
{"id": "C29", "title": "Lexical table get/set laws", "statement": "After any history of setLexNumer/setLexDenom calls each getter returns the last value set for exactly that key with found=true, and found=false for keys never set, in the in-memory and in the LevelDB table; getTransForTarget returns exactly the source words having a numerator for that target word. The boolean result of the in-memory getTransForTarget only tells that some target word with at least that index has a numerator.", "quantifier": "all histories of sets", "why_tests_cant": "frame conditions over all histories", "anchors": ["src/sw_models/IncrLexTable.cc: setLexNumer, getLexNumer, setLexDenom, getLexDenom, getTransForTarget", "src/sw_models/LevelDbLexTable.cc: setLexNumer, getLexNumer, setLexDenom, getLexDenom"]}
{"id": "C30", "title": "Binary lexical table round trip", "statement": "Saving a lexical table to the 16-byte-record binary format and loading it restores every numerator with its found flag and the translation sets; the denominator of every source word having at least one numerator is restored (a missing one comes back as 0 with found=true); denominators of source words without numerators are lost.", "quantifier": "all histories of 32-bit sets with target index below 2^32-1", "why_tests_cant": "all tables incl. extreme 32-bit values", "anchors": ["src/sw_models/IncrLexTable.cc: printBin, loadBin"]}
{"id": "C31", "title": "Sentence handler random access", "statement": "For corpora whose source, target and count files have the same number of lines, nthSentPair(n) returns the n-th sentence pair regardless of the order in which pairs were requested before, and pairs added in memory follow the file pairs. If the count file is shorter than the corpus, a later request can return a wrong pair.", "quantifier": "all corpora and all access sequences", "why_tests_cant": "all access histories (rewinds)", "anchors": ["src/sw_models/LightSentenceHandler.cc: nthSentPair, nthSentPairFromFiles, addSentPair, readSentencePairs"]}
{"id": "C32", "title": "Socket message framing", "statement": "A sequence of integers and zero-free strings written with writeInt/writeStr is read back unchanged by recvInt/recvStlStr provided every recv delivers the requested bytes; if the transport fragments a string, the reader returns the part that arrived and takes the rest of the string for the next message. A failing write of a string body is not reported.", "quantifier": "all message sequences, all fragmentations of a string", "why_tests_cant": "needs every fragmentation of the byte stream", "anchors": ["src/nlp_common/BasicSocketUtils.cc: writeInt, recvInt, writeStr, recvStlStr"]}
{"id": "C33", "title": "Search stack keeps the best hypotheses", "statement": "After any sequence of pushes on an initially empty stack of maximum size k>=1, the stack holds the k highest scores pushed (all, if fewer), in non-increasing score order; top is the best and last the worst; push reports false exactly when the hypothesis was not kept.", "quantifier": "all push sequences and all sizes", "why_tests_cant": "arbitrary histories with ties", "anchors": ["src/stack_dec/SmtStack.h: pushIter, push, pop, removeLast"]}
{"id": "C34", "title": "Recombination keeps one hypothesis per state", "statement": "With a fixed positive maximum size, no history of pushes, pops, removals and mode changes on the recombining multi-stack uses a dangling pointer: every recombination pointer designates a stored hypothesis. When hypotheses of equal state belong to the same class, no two stored hypotheses share a decoder state, the stored one is a best one ever pushed with its state, and while there is room every pushed state stays represented. Two conditions are needed: the default class function (covered words, 0/1 jumps) is not determined by the state, so duplicates do occur, and lowering the maximum size between pushes leads to the use of a dangling iterator.", "quantifier": "all operation histories and sizes", "why_tests_cant": "dangling-pointer invariant over histories", "anchors": ["src/stack_dec/SmtMultiStackRec.h: pushOnSmtStack, pushOnSmtStackIdx, pop, eraseRecInfo", "src/stack_dec/HypStateDict.h", "src/stack_dec/PhrHypNumcovJumps01EqClassF.cc"]}
{"id": "C35", "title": "Multi-stack pop is best-first", "statement": "On a non-empty multi-stack pop() never fails, removes exactly the hypothesis it returns, and returns one whose score is maximal over all sub-stacks in best-first mode, and the best of the lowest-ordered non-empty sub-stack in breadth-first mode. top() agrees with pop() in breadth-first mode; in best-first mode only if some stored score exceeds that of a default hypothesis. removeLast() removes a worst hypothesis of the highest class in breadth-first mode, but in best-first mode that of the lowest class rather than the worst of all.", "quantifier": "all multi-stack contents reachable by any history", "why_tests_cant": "all contents", "anchors": ["src/stack_dec/SmtMultiStackRec.h: pop, removeLast", "src/stack_dec/_smtMultiStack.h: top, last"]}
{"id": "C36", "title": "State dictionary indices are unique and stable", "statement": "createDictEntry assigns consecutive indices starting at 0, never reuses an index and never changes the index of a known state.", "quantifier": "all histories", "why_tests_cant": "histories", "anchors": ["src/stack_dec/HypStateDict.h: createDictEntry, find"]}
{"id": "C37", "title": "BLEU n-gram precision is clipped multiset intersection", "statement": "prec_n reports as matches the size of the multiset intersection of the n-grams of system and reference, and as total the number of system n-grams; hence matches<=total, matches are symmetric and equal total when both sentences are equal.", "quantifier": "all sentence pairs and all n>=1", "why_tests_cant": "greedy matching vs. multiset definition for all inputs", "anchors": ["src/stack_dec/bleu.cc: prec_n"]}
{"id": "C38", "title": "User identifiers are unique under every schedule", "statement": "For every interleaving of calls from any number of client threads, idForUserName returns the same id for the same name, different ids for different names, ids are 0..n-1 in order of first use, and genNewUserNameIdPair returns a name and id not in use before.", "quantifier": "all schedules and all histories of calls", "why_tests_cant": "all interleavings", "anchors": ["src/stack_dec/UserNameToUserIdMap.cc: idForUserName, genNewUserNameIdPair"]}
{"id": "C39", "title": "Model-changing operations exclude translations", "statement": "Under every schedule of decoder calls, while an atomic operation (training, user initialization, clearing) runs its body no translation operation is inside its own, at most one atomic operation runs, and two translation operations of the same user never run at the same time. Printing models does not wait for running translations.", "quantifier": "all schedules, any number of threads", "why_tests_cant": "interleavings", "anchors": ["src/stack_dec/ThotDecoder.cc: wait_on_non_atomic_op_cond, increase_non_atomic_ops_running, decrease_non_atomic_ops_running, translateSentence, clearTrans, printModels"]}
{"id": "C40", "title": "Decoder locking is deadlock free unless user initialization fails", "statement": "From every reachable state in which no user initialization failed, some unfinished call can take a step. After one failing user initialization both global locks stay held for ever and no later training or translation call can complete.", "quantifier": "all schedules", "why_tests_cant": "absence of deadlock over all interleavings", "anchors": ["src/stack_dec/ThotDecoder.cc: initUserPars, wait_on_non_atomic_op_cond"]}
{"id": "C41", "title": "Bounded alignment-statistics matrix behaves as a FIFO cache", "statement": "With a bounded number m of sentence slots, after any sequence of writes a read of sentence n returns the last value written for (n,j,i) if n is among the mapped sentences and the invalid marker otherwise; the two slot mappings are mutually inverse partial bijections and at most m sentences are mapped. With m=0 nothing is stored.", "quantifier": "all write histories and all sizes", "why_tests_cant": "eviction histories", "anchors": ["src/sw_models/anjiMatrix.cc: set, get, map_n_in_matrix, n_is_mapped_in_matrix"]}
{"id": "C42", "title": "Extracted phrase pairs: exactly the consistent ones", "statement": "Every phrase pair extracted from a non-empty sentence pair and its alignment comes from a distinct pair of contiguous spans with at least one link inside and no link leaving the pair, respects the length limits (and monotonicity when asked for) and is weighted by the links inside it; conversely every such span pair whose outer source words are linked is extracted, the whole target sentence only together with the whole source sentence.", "quantifier": "all alignments, sentences of up to 100 words and parameters", "why_tests_cant": "2^(I*J) alignments", "anchors": ["src/phrase_models/PhraseExtractionTable.cc: extractConsistentPhrasesOld, obtainConsistentPhrases, validCoverageForCell, createVectorWithConsPhrases, zeroFertBitset, spuriousWordsBitset, existCellAlig"]}
{"id": "C43", "title": "Och extraction: exactly the consistent pairs without wide gaps", "statement": "The alternative (Och) extraction appends, once each, exactly the span pairs consistent with the alignment, within the target length limit, that have no two neighbouring unlinked target words between linked ones.", "quantifier": "all alignments and sentences of up to 100 words", "why_tests_cant": "2^(I*J) alignments", "anchors": ["src/phrase_models/PhraseExtractionTable.cc: extractConsistentPhrasesOch"]}
{"id": "C44", "title": "Word-graph rest scores are best completions", "statement": "On a topologically ordered word graph the heuristic computed for a state is the maximum score of a path of non-pruned arcs from it to a final state, for every state from which one exists.", "quantifier": "all acyclic word graphs", "why_tests_cant": "all graphs and paths", "anchors": ["src/error_correction/WordGraph.cc: obtainNbSearchHeurInfo"]}
{"id": "C45", "title": "Word-graph n-best list is correct", "statement": "On a topologically ordered word graph whose final states have no outgoing arcs, and while the search stack limit is not reached, the n-best list is sorted by score, contains only distinct complete paths with their exact scores, and no complete path left out is better than one listed.", "quantifier": "all word graphs and all n", "why_tests_cant": "A* optimality over all graphs", "anchors": ["src/error_correction/WordGraph.cc: nbSearch, hypIsComplete", "src/error_correction/NbSearchStack.cc"]}
{"id": "C46", "title": "Word-graph arc bookkeeping", "statement": "After any sequence of addArc calls (predecessor state known), the successor and predecessor arc lists of every state hold exactly the arcs leaving/entering it, in insertion order. Reordering arcs topologically breaks this: the adjacency lists, pruning marks and score components are not permuted.", "quantifier": "all histories", "why_tests_cant": "histories", "anchors": ["src/error_correction/WordGraph.cc: addArc, getArcIdsToSuccStates, getArcIdsToPredStates, orderArcsTopol"]}
{"id": "C47", "title": "Useful-state computation", "statement": "On a topologically ordered word graph, the states marked useful are exactly those lying on a path of non-pruned arcs from the initial state to a final state with an incoming arc (plus final states with an incoming arc), and the remapping is order preserving and gap free.", "quantifier": "all acyclic word graphs", "why_tests_cant": "all graphs", "anchors": ["src/error_correction/WordGraph.cc: obtainStatesReachableFromInit, obtainUsefulStates"]}
{"id": "C48", "title": "N-best table node keeps descending score order", "statement": "After any sequence of insertions the node lists its elements in non-increasing score order, elements with equal score in insertion order; threshold pruning removes exactly the elements scoring below the threshold.", "quantifier": "all histories", "why_tests_cant": "histories with ties", "anchors": ["src/nlp_common/NbestTableNode.h: insert, pruneGivenThreshold, getBestElem"]}
{"id": "C49", "title": "Language-model state is the last n-1 words", "statement": "Starting from the begin-of-sentence state and adding any words, the state is always the last n-1 words of the padded sentence, so the score of a word given the state equals the score given the full history's last n-1 words.", "quantifier": "all sentences and orders n", "why_tests_cant": "all histories", "anchors": ["src/incr_models/_incrNgramLM.h: getStateForBeginOfSentence, addNextWordToState, getLgProbEndGivenState"]}
{"id": "C50", "title": "Interpolated n-gram probabilities form a distribution", "statement": "If the interpolation weights lie in [0,1], counts are consistent (joint counts of a history sum to at most its count) then every Jelinek-Mercer interpolated probability is in [0,1] and the probabilities of all vocabulary words given any history sum to at most one.", "quantifier": "all count tables, weights, histories", "why_tests_cant": "real-valued identity over all tables", "anchors": ["src/incr_models/_incrJelMerNgramLM.h: pTrgGivenSrcRec"]}
{"id": "C51", "title": "N-gram counts are consistent", "statement": "In the in-memory n-gram count table built by incrCountsOfEntry from empty, the count of a history equals the sum of the joint counts of its continuations.", "quantifier": "all training histories", "why_tests_cant": "histories", "anchors": ["src/incr_models/vecx_x_incr_cptable.h: incrCountsOfEntryLog"]}
{"id": "C52", "title": "Log-domain sum is exact", "statement": "Over the reals, lns_sumlog(x,y) = log(exp x + exp y) and is commutative; lns_sublog(x,y) = log(exp x - exp y) for x>y.", "quantifier": "all reals", "why_tests_cant": "real analysis identity", "anchors": ["src/nlp_common/MathFuncs.cc: lns_sumlog, lns_sublog"]}
{"id": "C53", "title": "Last word of a string", "statement": "getLastWord returns the last blank-delimited word of a string (ignoring trailing blanks) whenever the word is preceded by a blank; for a string consisting of a single word it loses the word's first character.", "quantifier": "all strings", "why_tests_cant": "holds for every string; a test only sees particular ones", "anchors": ["src/nlp_common/StrProcUtils.cc: getLastWord"]}
{"id": "C54", "title": "Prefix tests and blank trimming", "statement": "isPrefix(a,b) holds exactly when b extends a; isPrefixStrVec(v1,v2) holds exactly when v1 is empty or v2 starts with v1 except that the last word of v1 may be extended in v2; removeLastBlank removes exactly one trailing blank and undoes addBlank.", "quantifier": "all strings and word vectors", "why_tests_cant": "exact characterization over all strings", "anchors": ["src/nlp_common/StrProcUtils.cc: isPrefix, isPrefixStrVec, removeLastBlank, addBlank, lastCharIsBlank"]}
{"id": "C55", "title": "Phrase table entry listings are exact", "statement": "getEntriesForTarget(t) lists, once each, exactly the source phrases whose stored source count and joint count with t are both non-zero, with those counts; getEntriesForSource(s) symmetrically (with target counts). The in-memory getEntriesForTarget has undefined behaviour on a table without source phrases; LevelDB's returns true even when every listed count is zero.", "quantifier": "all histories, all query phrases, three backends", "why_tests_cant": "range scans and prefix scans are wrong only for particular key neighbourhoods", "anchors": ["src/phrase_models/StlPhraseTable.cc: getEntriesForTarget, getEntriesForSource", "src/phrase_models/HatTriePhraseTable.cc: getEntriesForTarget, getEntriesForSource", "src/phrase_models/LevelDbPhraseTable.cc: getEntriesForTarget"]}
{"id": "C56", "title": "BLEU scores lie in (0,1] and identical texts score 1", "statement": "For every pair of texts with at least one output word the BLEU score (over exact reals) is in (0,1]; identical texts containing a sentence of at least four words score exactly 1. If no output sentence has four words the score is at most exp(-249999999.75), even for a perfect output.", "quantifier": "all corpora", "why_tests_cant": "real-valued bound over all corpora", "anchors": ["src/stack_dec/bleu.cc: calc_bleuf, my_log"]}
{"id": "C57", "title": "Best path in a word graph", "statement": "On a topologically ordered word graph with scores of normal magnitude, the best path from a state to the final states that avoids a given set of arcs is returned with its exact score and no such path scores more; if there is none (and scores are not positive) the empty path is returned.", "quantifier": "all word graphs, starting states and sets of excluded arcs", "why_tests_cant": "all graphs, paths and exclusion sets", "anchors": ["src/error_correction/WordGraph.cc: calcPrevScores, bestPathFromFinalStateToIdx"]}
{"id": "C58", "title": "Word-graph pruning keeps what is within the threshold", "statement": "Pruning an unpruned topologically ordered word graph with initial score 0 keeps exactly the arcs that lie on a complete path whose score is within the threshold of the best one, reports the number of arcs pruned, and so keeps every best path. With a non-zero initial score this fails.", "quantifier": "all word graphs and thresholds", "why_tests_cant": "all graphs and thresholds", "anchors": ["src/error_correction/WordGraph.cc: prune, pruneArcsToPredStates, calcRestScores, calcPrevScores"]}
{"id": "C59", "title": "Combinatorial functions are exact", "statement": "logFactorial, logCombmn and logNumbPermsOfTwoElems are the logarithms of n!, of the binomial coefficient and (when at least one element is chosen) of the number of arrangements; the GMP versions compute the binomial coefficient exactly for all arguments.", "quantifier": "all numbers", "why_tests_cant": "unbounded arguments; identity over the reals", "anchors": ["src/nlp_common/MathFuncs.cc: logFactorial, logCombmn, logNumbPermsOfTwoElems, mp_factorial, mp_logCombmn, mp_numbPermsOfTwoElems"]}
{"id": "C60", "title": "Distribution functions are distributions", "statement": "poisson, geom, triang_cdf and logarithmic_cdf return the textbook probabilities; the cumulative functions are monotone on their support, lie in [0,1] and reach their end values.", "quantifier": "all parameters and arguments on the support", "why_tests_cant": "real-valued identities over all arguments", "anchors": ["src/nlp_common/MathFuncs.cc: log_poisson, poisson, poisson_cdf, geom, geom_cdf, triang_cdf, logarithmic_cdf"]}
{"id": "C61", "title": "Iterating a trie visits every stored key exactly once", "statement": "The const_iterator of the sequence trie, from begin() to end(), yields every stored key sequence and every prefix of one exactly once with its data, longer keys before their own prefixes, and stops.", "quantifier": "all tries built by any history of insertions, all key orders", "why_tests_cant": "iteration over arbitrary tree shapes; explicit stack invariant", "anchors": ["src/nlp_common/TrieVecs.h: const_iterator, begin, operator++"]}
{"id": "C62", "title": "Word codes are a bijection that never changes", "statement": "The language model gives different codes to different known words, maps each code back to its word, never changes a code once given, and maps unknown words to the unknown symbol without adding them.", "quantifier": "all histories of count increments and table-entry insertions", "why_tests_cant": "histories of calls", "anchors": ["src/incr_models/vecx_x_incr_enc.h: genHSrcCode, genHTrgCode, addHSrcCode, load", "src/incr_models/lm_ienc.cc: HighSrc_to_Src, HighTrg_to_Trg", "src/incr_models/_incrNgramLM.h: stringToWordIndex, existSymbol, wordIndexToString"]}
{"id": "C63", "title": "Printing and loading a language model keeps every count", "statement": "The printed n-gram file lists each n-gram with positive count once, with its count and its history's count; loading that file gives a model that answers every count query the same and has the order of the longest n-gram.", "quantifier": "all training histories", "why_tests_cant": "all tables and vocabularies", "anchors": ["src/incr_models/_incrNgramLM.h: print, load_ngrams", "src/incr_models/_incrEncCondProbModel.h: addTableEntry"]}
{"id": "C64", "title": "Perplexity is the inverse geometric mean probability", "statement": "perplexity over a corpus counts sentences and words exactly, totals the sentence log10 probabilities, and returns the perplexity whose (words+sentences)-th power is one over the product of the conditional probabilities.", "quantifier": "all corpora, models and orders", "why_tests_cant": "real-valued identity over all corpora", "anchors": ["src/nlp_common/BaseNgramLM.h: perplexity, getSentenceLog10ProbStr"]}
{"id": "C65", "title": "Count-table queries agree with the stored counts", "statement": "getEntriesForSource returns each continuation of a history with non-zero count once, with the joint and history counts; the table probability of a word given a history is its relative frequency (0 for unseen histories).", "quantifier": "all histories of increments and insertions, all source sequences", "why_tests_cant": "histories of calls", "anchors": ["src/incr_models/vecx_x_incr_cptable.h: getEntriesForSource, pTrgGivenSrc, cTrg"]}
{"id": "C66", "title": "Word alignment model 1: probability, best alignment, incremental evaluation", "statement": "For the trained lexical table and any sentence pair within the length limits, the reported log probability is the log of the sum over all alignments of the joint probability (times the length model); the best alignment returned has the maximal joint probability and its reported score is that probability; evaluating the source words chunk by chunk gives the same value. Outside the length limits the probability is zero.", "quantifier": "every lexical table, length model, source and target sentence, split of the source sentence in chunks", "why_tests_cant": "The number of alignments is (l+1)^m; a test can compare a handful of short pairs with enumeration, not all sentences.", "anchors": ["src/sw_models/IncrIbm1AligModel.cc: calcLgProb, obtainBestAlignment, calcLgProbForAlig, initPpInfo, partialProbWithoutLen, lpFromPpInfo"]}
{"id": "C67", "title": "Word alignment model 1: expectations", "statement": "When a sentence pair is processed, the expected alignment values of each target word over the source words and NULL are in (0,1] and add up to one, and they are the posterior probabilities of the links whenever no smoothing threshold is active.", "quantifier": "every reachable model state, every sentence pair, every position", "why_tests_cant": "Posteriors are defined through exponentially many alignments; depends on every reachable table.", "anchors": ["src/sw_models/IncrIbm1AligModel.cc: calc_anji, calc_anji_num"]}
{"id": "C68", "title": "Word alignment model 1: incremental and batch training", "statement": "After any sequence of sentence pair additions and training calls over arbitrary ranges (positive weights), the translation probabilities are the relative frequencies of the expected counts of the latest expectations of every pair trained so far, they are never NaN and the probabilities of each source word with any translation add up to one. Batch training sets them to the relative frequencies of the expected counts under the previous probabilities.", "quantifier": "every history of addSentPair/trainSentPairRange/efficientBatchTrainingForRange calls", "why_tests_cant": "The state depends on the whole history; retraining a pair must subtract exactly what it contributed before.", "anchors": ["src/sw_models/IncrIbm1AligModel.cc: trainSentPairRange, efficientBatchTrainingForRange, calcNewLocalSuffStats, fillEmAuxVars, updatePars, obtainLogNewSuffStat", "src/sw_models/IncrLexTable.cc"]}
{"id": "C69", "title": "Word alignment model 1: training never lowers the likelihood", "statement": "A round of batch training over any range, from any reachable state in which no smoothing threshold is active on that range, does not decrease the log likelihood that the program reports for the range (for weighted pairs: the weighted log likelihood).", "quantifier": "every corpus, range, reachable table", "why_tests_cant": "It is an inequality between real numbers for all corpora; tests can only watch a few iterations.", "anchors": ["src/sw_models/IncrIbm1AligModel.cc: efficientBatchTrainingForRange, loglikelihoodForPairRange"]}
{"id": "C70", "title": "HMM Viterbi alignment is optimal", "statement": "For a source and a target sentence of 1 to 200 words (no source word NULL), the HMM aligner's best alignment is the alignment of a state path of maximal probability and the score returned is the sentence length score plus the log of that probability, as long as some path has probability above exp(-99999); below it, only the last target word is aligned (to the first source word). Sentences outside 1..200 words give the score -99999 and an empty alignment.", "quantifier": "all sentence pairs, parameter tables, smoothing factors and sentence length models", "why_tests_cant": "the number of paths is exponential in the sentence length; tests compare a handful of alignments", "anchors": ["src/sw_models/_incrHmmAligModel.cc:obtainBestAlignmentCached", "src/sw_models/_incrHmmAligModel.cc:viterbiAlgorithmCached", "src/sw_models/_incrHmmAligModel.cc:bestAligGivenVitMatrices", "src/sw_models/_incrHmmAligModel.cc:getSrcLen", "src/sw_models/_incrHmmP0AligModel.cc:unsmoothed_aProb"]}
{"id": "C71", "title": "HMM sentence probability is the sum over all paths", "statement": "calcLgProb of the HMM aligner returns the sentence length score plus the logarithm of the sum over all state paths of the path probability, so it is never below the score of the best alignment.", "quantifier": "all sentence pairs and parameters", "why_tests_cant": "sum over exponentially many paths", "anchors": ["src/sw_models/_incrHmmAligModel.cc:calcLgProb", "src/sw_models/_incrHmmAligModel.cc:forwardAlgorithm", "src/sw_models/_incrHmmAligModel.cc:lgProbGivenForwardMatrix"]}
{"id": "C72", "title": "HMM transition and lexical parameters are probability distributions", "statement": "For every source length and previous state, the smoothed transition probabilities over the allowed next states (every word, the NULL state of the word it comes from, every NULL state at the start) sum to one when the counts read are complete, in both the plain and the fixed-p0 variant; disallowed transitions have exp(-99999). The lexical probabilities of a source word over the target vocabulary sum to one. (Found false for source lengths or words not seen in training: the sum is only the smoothing factor.)", "quantifier": "all source lengths, states, source words, tables, smoothing factors", "why_tests_cant": "ranges over all tables and all lengths", "anchors": ["src/sw_models/_incrHmmAligModel.cc:logaProb", "src/sw_models/_incrHmmAligModel.cc:unsmoothed_aProb", "src/sw_models/_incrHmmAligModel.cc:isValidAlig", "src/sw_models/_incrHmmAligModel.cc:nullAligSpecialPar", "src/sw_models/_incrHmmAligModel.cc:logpts", "src/sw_models/_incrHmmP0AligModel.cc"]}
{"id": "C73", "title": "HMM transition caches are invisible", "statement": "Aligning any sequence of sentence pairs with a shared cache gives exactly the scores and alignments of aligning each alone; and a history of cached transition queries, each after room was made for its indices, never reads outside the cache and returns the uncached values.", "quantifier": "all histories of alignment calls and of cache queries", "why_tests_cant": "depends on the history of earlier calls (growth of the cache, invalid marks)", "anchors": ["src/sw_models/CachedHmmAligLgProb.cc:makeRoomGivenNSrcSentLen", "src/sw_models/CachedHmmAligLgProb.cc:set_boundary_check", "src/sw_models/_incrHmmAligModel.cc:cached_logaProb", "src/sw_models/_incrHmmAligModel.cc:obtainBestAlignmentCached"]}
{"id": "C74", "title": "HMM E-step computes posterior state probabilities", "statement": "The expected value computed for target position j and state i is the log of the posterior probability of being in state i at j given both sentences (sum of the probabilities of all paths through it over the sum of all paths), with joint probabilities floored at exp(-99999) and the result clamped to [-9,-0.01]; the unclamped posteriors sum to one for each position.", "quantifier": "all sentence pairs, positions, states and parameters", "why_tests_cant": "sums over exponentially many paths", "anchors": ["src/sw_models/_incrHmmAligModel.cc:calc_lanji", "src/sw_models/_incrHmmAligModel.cc:calcAlphaMatrix", "src/sw_models/_incrHmmAligModel.cc:calcBetaMatrix", "src/sw_models/_incrHmmAligModel.cc:calc_lanji_num"]}
{"id": "C75", "title": "Incremental sentence-length training keeps exact sample statistics", "statement": "After training the sentence length model on any sequence of weighted sentence pairs, one by one and in any order, the mean and deviation it uses for a source length seen at least twice are the weighted mean and the Bessel-corrected weighted standard deviation of the target lengths seen with it; a length seen less than twice has none; the counts and length totals are those of the history.", "quantifier": "all training histories with positive weights, all source lengths", "why_tests_cant": "an incremental recurrence over arbitrary histories", "anchors": ["src/sw_models/WeightedIncrNormSlm.cc:trainSentPair", "src/sw_models/WeightedIncrNormSlm.cc:get_mean_stddev"]}
{"id": "C76", "title": "Sentence-length probabilities are normal interval masses", "statement": "The probability of target length t>=1 given a source length is the mass of [t-1/2,t+1/2] under the normal distribution of that source length (fallback: source length plus average difference, deviation a quarter of it), floored at 1e-7; the masses of lengths 1..n telescope to a value in [0,1); if only one target length was ever seen (twice or more) it has probability 1. (Found false: length 0 always gets the floor because tlen-1 wraps; a negative fallback mean gives a decreasing distribution function and the floor for every length.)", "quantifier": "all histories, source lengths, target lengths, any increasing error function in (-1,1)", "why_tests_cant": "ranges over all histories and lengths", "anchors": ["src/sw_models/WeightedIncrNormSlm.cc:sentLenLgProbNorm", "src/sw_models/WeightedIncrNormSlm.cc:sumSentLenProbNorm", "src/nlp_common/MathFuncs.cc:norm_cdf"]}
{"id": "C77", "title": "Gaps of a hypothesis are the maximal uncovered runs", "statement": "extract_gaps lists, from left to right, exactly the maximal runs of source positions of 1..n not covered by the hypothesis, and get_num_gaps returns their number.", "quantifier": "every sentence length and every list of covered segments", "why_tests_cant": "There are exponentially many coverage patterns; tests touch a few.", "anchors": ["src/stack_dec/_pbTransModel.h:extract_gaps", "src/stack_dec/_pbTransModel.h:get_num_gaps", "src/stack_dec/_phraseHypothesis.h:getKey"]}
{"id": "C78", "title": "Expansion produces exactly the admissible one-segment extensions", "statement": "For every hypothesis the decoder can reach, the covered source segments are disjoint and inside the sentence and each is translated by one of its translation options; expanding it gives exactly the extensions by one segment inside a gap (length at most A, jump at most U, or a whole constrained segment); if every word has an option, an incomplete hypothesis always has an extension.", "quantifier": "every sentence, constraint set, phrase table, A, U, and every hypothesis reachable by any number of expansions", "why_tests_cant": "Quantifies over all expansion histories, phrase tables and constraint sets.", "anchors": ["src/stack_dec/_pbTransModel.h:expand", "src/stack_dec/_pbTransModel.h:getHypDataVecForGap", "src/stack_dec/_pbTransModel.h:getTransForHypUncovGap", "src/stack_dec/PbTransModel.h:extendHypDataIdx"]}
{"id": "C79", "title": "Coverage counts of reachable hypotheses are exact", "statement": "For every reachable hypothesis, isComplete holds iff every source word is covered; the number of uncovered words and the distance to the null hypothesis count positions exactly (no wrap-around), and every expansion strictly increases the distance.", "quantifier": "every reachable hypothesis", "why_tests_cant": "Depends on an invariant over all expansion histories (disjointness of segments).", "anchors": ["src/stack_dec/PbTransModel.h:isCompleteHypData", "src/stack_dec/PbTransModel.h:numberOfUncoveredSrcWordsHypData", "src/stack_dec/BasePbTransModel.h:distToNullHyp"]}
{"id": "C80", "title": "A hypothesis can be read back", "statement": "obtainPredecessorHypData undoes the last extension, getTrgTransForSrcPhr returns the phrase a segment was translated by, and areAligned holds exactly for positions of the same segment pair. (Refuted for hypotheses all of whose phrases are empty: they report no predecessor.)", "quantifier": "every list of translated segments, every pair of positions", "why_tests_cant": "Any number of segments and phrase lengths, including empty phrases.", "anchors": ["src/stack_dec/PbTransModel.h:obtainPredecessorHypData", "src/stack_dec/_phraseHypothesis.h:getTrgTransForSrcPhr", "src/stack_dec/_phraseHypothesis.h:areAligned"]}
{"id": "C81", "title": "Translations respect the user's constraints and copy unknown words", "statement": "Every reachable hypothesis translates constrained segments only as units and only by the user's words, so the text of a complete translation contains exactly the user's words for each of them; source words without translation options are copied verbatim. (translationSatisfiesConstraints alone does not enforce it.)", "quantifier": "every sentence, constraint set, phrase table and reachable hypothesis", "why_tests_cant": "Holds by an interplay of option filtering and text generation over all search histories.", "anchors": ["src/stack_dec/TranslationMetadata.h:translationSatisfiesConstraints", "src/stack_dec/TranslationMetadata.h:srcPhrAffectedByConstraint", "src/stack_dec/_pbTransModel.h:getTransInPlainTextVecTs", "src/stack_dec/_pbTransModel.h:getTransForHypUncovGap"]}
{"id": "C82", "title": "Annotated source sentences are parsed faithfully", "statement": "Text in which some phrases carry a user translation (phr_pair_annot/src_segm/trg_segm tags) is read as exactly its source words plus, for each annotated phrase, the positions of its words with the given translation; malformed annotations never crash the parser, and whatever the input the constraints obtained are ordered, disjoint, inside the sentence and have a non-empty translation", "quantifier": "every sentence with any number of annotated phrases of any length; every raw input line", "why_tests_cant": "The round trip must hold for all sentences and placements of tags, glued to words or not", "anchors": ["src/stack_dec/TranslationMetadata.h:obtainTransConstraints", "src/stack_dec/TranslationMetadata.h:tokenizeSrcSentence", "src/stack_dec/TranslationMetadata.h:constraintFound"]}
{"id": "C83", "title": "Decoder search is safe, sound and terminating", "statement": "For any translation model whose extensions cover more and more of the sentence, any stack size, number of hypotheses per iteration, pruning and search order, a translation followed by any number of requests for the next one finishes within a bounded number of iterations, never touches an invalid container position, and returns only the null hypothesis or an extension of the start hypothesis whose score is the start score plus the scores of its extensions; an incomplete result without hitting the iteration limit means the search space is exhausted.", "quantifier": "all translation models (search graphs), decoder parameters and numbers of next-translation requests", "why_tests_cant": "The search space and the interleaving of pushes, pops, recombination and pruning are unbounded", "anchors": ["src/stack_dec/_stackDecoder.h:decode", "src/stack_dec/_stackDecoder.h:push", "src/stack_dec/_stackDecoder.h:pop", "src/stack_dec/_stackDecoder.h:getNextTrans", "src/stack_dec/SmtMultiStackRec.h"]}
{"id": "C84", "title": "Best translation and ordered N-best list", "statement": "Taking one hypothesis per iteration, with stacks large enough for the search space, states that agree on the possible extensions and (best-first) an estimate that is never too low, translate returns a complete translation with the best score; and successive next-translation requests return complete translations in non-increasing score order, however small the stacks. (Findings: with more than one hypothesis per iteration, or after switching a decoder from breadth-first to best-first, a worse translation may be returned.)", "quantifier": "all translation models meeting the assumptions, both search orders, all stack sizes and numbers of requests", "why_tests_cant": "Optimality is a statement about every derivation of an unbounded search space", "anchors": ["src/stack_dec/_stackDecoder.h:decode", "src/stack_dec/_stackDecoder.h:getNextTrans", "src/stack_dec/_smtMultiStack.h:clear", "src/stack_dec/_smtMultiStack.h:set_bf", "src/stack_dec/ThotDecoder.cc:set_be"]}
{"id": "C85", "title": "The word graph built by the decoder contains exactly derivations", "statement": "With word graphs enabled, translating a sentence and asking for further translations never fails, gives the same results as without word graphs and leaves an acyclic word graph, made only by legal calls, in which every path from the initial state spells a derivation of the translation model with its words and its score (plus the heuristic when it is not complete), final states are those of complete derivations (plus that of the first result when it was not complete), and every returned translation is spelled with its score by a path from the initial state to a final state. In breadth-first order with one hypothesis per iteration the arcs are in topological order; in best-first order they need not be (finding).", "quantifier": "every translation model whose extensions append words and whose states determine them, every decoder parameter, every number of n-best requests", "why_tests_cant": "The graph accumulates over the whole search, including hypotheses pruned or recombined; the search space and the parameters are unbounded.", "anchors": ["src/stack_dec/_stackDecoderRec.h:pushGivenPredHyp,addArcToWordGraph,getHypStateIndex,post_trans_actions", "src/stack_dec/HypStateDict.h", "src/stack_dec/_stackDecoder.h:decode"]}
{"id": "C86", "title": "Hypothesis scores are the log-linear combination of feature values on the whole translation", "statement": "For every source sentence, feature set, weights and every sequence of extensions from the null hypothesis (adding one or several segments each), the score accumulated incrementally equals the weighted sum of each feature evaluated on the complete list of translated segments (language model with the end-of-sentence term exactly when all words are covered, word penalty telescoped, reordering distances, segment lengths); no computation accesses data out of range, and the score components printed with a translation, weighted, sum to its score.", "quantifier": "All sentences, features, weights, segmentations and chunkings of the extensions.", "why_tests_cant": "Unit tests compare scores for a few hypotheses; equality between incremental and global scores must hold for every path through the search.", "anchors": ["src/stack_dec/PbTransModel.h:incrScore", "src/stack_dec/LangModelFeat.cc", "src/stack_dec/WordPenaltyFeat.cc", "src/stack_dec/SrcPosJumpFeat.cc", "src/stack_dec/_pbTransModel.h:printHyp"]}
{"id": "C87", "title": "Recombined hypotheses have the same future", "statement": "Two hypotheses with equal states (language model history, target length, end of last source phrase, coverage) admit the same continuations; each continuation changes both scores and every score component by the same amount and yields equal states again, provided the model has at most one language-model feature. With several language models this fails: they overwrite one shared history.", "quantifier": "All pairs of scored hypotheses with equal states and all continuations.", "why_tests_cant": "Recombination discards hypotheses for good; tests cannot show that no discarded hypothesis had a better completion.", "anchors": ["src/stack_dec/PhraseBasedTmHypRec.h:getHypState", "src/stack_dec/PhrHypState.cc", "src/stack_dec/PbTransModel.h:incrScore", "src/stack_dec/LangModelFeat.cc"]}
{"id": "C88", "title": "The decoder's estimate is the value of the best completion", "statement": "For every sentence length, translation options and scores, the heuristic table gives every stretch of words the best total over all its segmentations (unknown words copied), no access leaves the table, and the estimate of every hypothesis is exactly the best total over all ways to translate its uncovered words in segments, in any order; so no completion using the given options has a higher phrase score than estimated, and segments without translation are never used. The distortion estimate of the other heuristic is not a bound: it charges a jump of one where the model charges none.", "quantifier": "All sentences, option tables, scores and hypotheses.", "why_tests_cant": "A dynamic programming table over all intervals; an index slip shows only for particular lengths and coverages.", "anchors": ["src/stack_dec/_pbTransModel.h:initHeuristicLocalt", "src/stack_dec/_pbTransModel.h:getLocalTmHeurScore", "src/stack_dec/SrcPosJumpFeat.h:min_jumps"]}
{"id": "C89", "title": "The best translation options of a phrase are kept", "statement": "For every set of translations and score function, the list of options for a source phrase is sorted by score with ties in set order; with W at least 1 it holds the W best ones, with W below 1 exactly those whose score is within log W of the best; no element is lost or duplicated and no iterator leaves the table.", "quantifier": "All option sets, scores and pruning parameters.", "why_tests_cant": "Pruning must be right for all sizes and ties, including the empty and singleton tables where the code decrements iterators.", "anchors": ["src/nlp_common/NbestTableNode.h", "src/stack_dec/_pbTransModel.h:getNbestTransForSrcPhrase"]}
{"id": "C90", "title": "The decoder returns a best translation of the sentence", "statement": "With at most one language model, one hypothesis taken per iteration and enough room in the stacks, translating a sentence with the phrase-based decoder (breadth-first, or best-first with an estimate that never underrates the score of the rest) returns a translation of the whole sentence whose log-linear score is the highest among all translations allowed by the phrase table, the user's constraints and the limits on phrase length and skipped words, provided there is one; constrained segments get the user's words. Whatever the parameters, translating and asking for further translations ends without failure and every result is such a (possibly partial) translation with its exact score.", "quantifier": "all sentences, phrase tables, constraints, features and weights, heuristics, decoder parameters and numbers of requests", "why_tests_cant": "the number of translations is exponential in the sentence length and the search depends on recombination, stack order, the heuristic and every score; tests compare a few sentences with no reference to the optimum", "anchors": ["src/stack_dec/_stackDecoder.h:translate", "src/stack_dec/_pbTransModel.h:expand", "src/stack_dec/PbTransModel.h:incrScore", "src/stack_dec/PhraseBasedTmHypRec.h"]}
{"id": "C91", "title": "The decoder's word graph contains exactly scored translations", "statement": "With word graphs enabled the phrase-based decoder gives the same translations, and the graph is acyclic; every path from its initial state spells the text of a (partial) translation allowed by the model, with its log-linear score (plus the estimate of the rest for a partial one), and ends in a final state if the translation is complete; every result of the decoder is spelled with its score by such a path.", "quantifier": "all sentences, models, decoder parameters, numbers of requests and paths", "why_tests_cant": "the graph merges exponentially many hypotheses through recombination; tests look at a few graphs", "anchors": ["src/stack_dec/_stackDecoderRec.h:addArcToWordGraph", "src/stack_dec/_pbTransModel.h:getTransInPlainTextVec", "src/stack_dec/WordGraph.cc"]}
{"id": "C92", "title": "Prefix edit distance between sentences", "statement": "For a sentence of non-empty words and a user prefix (clean words, optional final blank marking the last word as finished), the word-level prefix edit distance with character-level word costs is exactly the cheapest cost of turning some initial part of the sentence into the prefix (the whole sentence without the prefix-deletion operation), the returned word operations realise it, and the word-cost cache never changes a cost. Refuted: the empty prefix charges deleting the whole sentence; HIT may be reported for a word that is only extended; a word with a blank can collide in the cache.", "quantifier": "all sentences, prefixes, costs with positive deletion cost, both modes, every cache state", "why_tests_cant": "The space of pairs of sentences is infinite; optimality over all alignments cannot be tested.", "anchors": ["src/error_correction/EditDistForVecString.cc:EditDistForVecString::calculateEditDistPrefixOpsAux", "src/error_correction/EditDistForVecString.cc:EditDistForVecString::processMatrixCellPref", "src/error_correction/EditDistForVecString.cc:EditDistForVecString::obtainOperationsPref", "src/error_correction/EditDistForVecString.h:prefSubstitutionCost"]}
{"id": "C93", "title": "Corrections extend the user's prefix", "statement": "The correction of any sentence given a user prefix starts with the typed words (finished words literally, an unfinished last word is continued), is followed by an unchanged final part of the sentence, and never reads outside its inputs. Refuted for a prefix whose inner word carries a blank.", "quantifier": "all sentences, prefixes, costs with positive deletion cost, both modes", "why_tests_cant": "It is the contract of interactive translation and must hold for every sentence and prefix.", "anchors": ["src/error_correction/_editDistBasedEcm.cc:_editDistBasedEcm::correctStrGivenPrefOps", "src/error_correction/_editDistBasedEcm.cc:_editDistBasedEcm::correctWordGivenPrefOps", "src/error_correction/PfsmEcm.cc:PfsmEcm::correctStrGivenPref", "src/error_correction/PfsmEcmForWg.cc"]}
{"id": "C94", "title": "Incremental word-graph correction scores equal scores from scratch", "statement": "When a user hands over a sequence of prefixes for the same word graph, the error-correction scores stored for every word-graph state after the last prefix are, for every number of prefix words, the smallest edit distance between a sentence read on a path to the state and these words, exactly as if only the last prefix had been processed, provided the reused columns are those of a common beginning that neither prefix ends at.", "quantifier": "every word graph in topological order whose paths to a state have equal weighted score, every history of prefixes, every cost and weight", "why_tests_cant": "the number of word graphs, paths and prefix histories is unbounded and stale columns only show for particular successions of prefixes", "anchors": ["src/error_correction/WgProcessorForAnlp.h:procWgGivenPrefDiff", "src/error_correction/PfsmEcmForWg.cc:extendEsi", "src/error_correction/EditDistForVecString.cc:incrEditDistPrefixCached"]}
{"id": "C95", "title": "The word-graph path chosen for a prefix is optimal", "statement": "The combined score stored for a word-graph state and prefix position is the maximum over the paths to the state of weighted path score minus weighted edit distance, and following the stored predecessor arcs and edit operations back from the state reads a sentence on a path with exactly that score.", "quantifier": "every word graph in topological order whose paths to a state have equal weighted score, every reusable history of prefixes, every cost and weight", "why_tests_cant": "optimality is a statement about all paths and all edit scripts; traceback correctness depends on operations recorded in different interactions", "anchors": ["src/error_correction/WgProcessorForAnlp.h:updateBestScoresForState", "src/error_correction/WgProcessorForAnlp.h:obtainBestUncorrPrefHypState", "src/error_correction/PfsmEcmForWg.cc:obtainLastInsPrefWordVecFromEsi"]}
{"id": "C96", "title": "N-best corrections of a word graph", "statement": "The list of corrections offered for a typed prefix is in descending score order, has at most n entries, every entry starts with what the user typed and is the best-path correction of a word-graph state or of a position inside an arc followed by the best completion compatible with the rejected words, and no admissible candidate better than an entry of a full list is left out.", "quantifier": "every word graph in topological order whose paths to a state have equal weighted score, every reusable history of prefixes, every set of rejected words, every n >= 1", "why_tests_cant": "the guarantee ranges over all graphs, prefixes and rejected words; a candidate lost by the two-stage pruning or a correction not compatible with the prefix only shows on particular combinations", "anchors": ["src/error_correction/WgProcessorForAnlp.h:obtainNbestCorrections", "src/error_correction/WgProcessorForAnlp.h:obtainNbestHypSubStates", "src/error_correction/WgProcessorForAnlp.h:wordSatisfiesRejWordConstraint"]}
{"id": "C97", "title": "IBM model 2 queries", "statement": "calcLgProb returns the log of the length probability times the sum over all alignments of lexical times alignment probabilities; obtainBestAlignment returns an alignment of greatest joint probability with its score and leaves a target word that nothing generates unaligned; computing the probability chunk by chunk of the source gives the same value. (Refuted: scoring a given alignment shifts every link and omits the length probability.)", "quantifier": "all parameter tables, sentence pairs, alignments and splittings of the source sentence into chunks", "why_tests_cant": "the claim is about a sum and a maximum over (l+1)^m alignments for every table", "anchors": ["src/sw_models/IncrIbm2AligModel.cc:calcSumIBM2LgProb", "src/sw_models/IncrIbm2AligModel.cc:lexAligM2LpForBestAlig", "src/sw_models/IncrIbm2AligModel.cc:calcLgProbForAlig", "src/sw_models/IncrIbm2AligModel.cc:partialProbWithoutLen"]}
{"id": "C98", "title": "IBM model 2 expectation step", "statement": "For every target position the expected link values over source positions and NULL are positive and add up to one; they are the shares of lexical times alignment probability (0.1 for a parameter never seen, at least 1e-6), and equal the posterior link probabilities when no threshold is active.", "quantifier": "all sentence pairs and all parameter tables reached by any history of training", "why_tests_cant": "quantifies over every training history and table", "anchors": ["src/sw_models/IncrIbm2AligModel.cc:calc_anji_num", "src/sw_models/IncrIbm1AligModel.cc:calc_anji"]}
{"id": "C99", "title": "IBM model 2 training", "statement": "After any session of adding sentence pairs and incremental training over ranges, translation and alignment probabilities are those of incremental EM: relative frequencies of the expected counts given by the latest expectations of each pair, so training a pair again replaces its contribution; both are normalised. A batch round gives the relative frequencies of the expected counts under the old parameters.", "quantifier": "all sessions (sequences of additions and training ranges), all words and positions", "why_tests_cant": "holds for every history; errors of subtracting old contributions only show after particular sequences", "anchors": ["src/sw_models/IncrIbm2AligModel.cc:fillEmAuxVarsAlig", "src/sw_models/IncrIbm2AligModel.cc:updateParsAlig", "src/sw_models/IncrIbm2AligTable.cc", "src/sw_models/IncrIbm1AligModel.cc:calcNewLocalSuffStats"]}
{"id": "C100", "title": "IBM model 2 likelihood", "statement": "A round of batch training never decreases the (weighted) log likelihood of the sentence pairs trained on, when no smoothing threshold is active.", "quantifier": "all corpora, ranges and reachable parameter tables", "why_tests_cant": "a guarantee of EM over all corpora and tables, including ones where the gain is arbitrarily small", "anchors": ["src/sw_models/IncrIbm2AligModel.cc:efficientBatchTrainingForRange", "src/sw_models/IncrIbm1AligModel.cc:loglikelihoodForPairRange"]}
{"id": "C101", "title": "Merging sorted count files adds up the counts", "statement": "Merging sorted binary tables of log counts (lexical, IBM 2 or HMM alignment tables) writes a sorted table that has exactly the keys of the inputs, in which the count of every pair is the sum of its counts in the files and the total of every source is the sum of its totals in the files, however the priority queue breaks ties; the merge always terminates. (With no record in any of the files the tool reads outside a vector.)", "quantifier": "all numbers of files, file contents and tie-breaking choices", "why_tests_cant": "quantifies over every set of sorted files and every legal order of equal keys", "anchors": ["src/sw_models/thot_merge_bin_ilextable.cc:processFiles", "src/sw_models/thot_merge_bin_iibm2atable.cc:processFiles", "src/sw_models/thot_merge_bin_ihmmatable.cc:processFiles", "src/sw_models/thot_sort_bin_ilextable.cc"]}
{"id": "C102", "title": "Training by chunks equals batch training", "statement": "Cutting the corpus into chunks, collecting counts for each chunk with the current model (filtered to the chunk), sorting and merging the counts and loading the result, repeated n times, gives for every word pair and alignment the same probabilities as n rounds of batch training on the whole corpus; and this can always be carried out when some sentence pair is usable.", "quantifier": "all corpora, all ways of cutting them, all numbers of iterations", "why_tests_cant": "equality of two different training procedures for every corpus and every partition", "anchors": ["utils/sw_models/thot_gen_batch_sw_model_mr.sh:train", "src/sw_models/thot_merge_bin_ilextable.cc", "src/sw_models/IncrIbm2AligModel.cc:efficientBatchTrainingForRange"]}
{"id": "C103", "title": "Filtering a sorted table", "statement": "Filtering a sorted lexical table with a sorted list of keys writes exactly the records with a key in the list, unchanged and in order, when every listed key is in the table. (A listed key that is missing makes the tool drop everything that follows.)", "quantifier": "all sorted tables and key lists", "why_tests_cant": "ranges over all tables and key lists; the failing case needs a key absent from the table", "anchors": ["src/sw_models/thot_filter_bin_ilextable.cc", "src/sw_models/thot_gen_bin_lex_filter_info.cc"]}
{"id": "C104", "title": "Pruning a lexical table", "statement": "Pruning a sorted lexical table with bounds n and c keeps for every source word at most n targets of relative frequency at least c, never drops a target more frequent than a kept one, drops one only if a bound demands it, leaves counts unchanged and writes totals with which the kept probabilities sum up to one.", "quantifier": "all sorted tables, all n and c, all orders of equally frequent targets", "why_tests_cant": "optimality of a selection over all tables and all sort outcomes", "anchors": ["src/sw_models/thot_prune_bin_ilextable.cc:printCounts"]}
{"id": "C105", "title": "HMM expectation step computes the expectations of the smoothed HMM", "statement": "For every sentence pair that is not skipped, the expectations the training step stores are those of the smoothed HMM: for every target position the relative joint probability of each state, for consecutive positions the relative joint probability of each pair of states, each brought into [exp(-9), exp(-1/100)]; without active thresholds a state's expectation is its posterior probability. (The NULL states of the first target word are all given the expectation of the first of them, which is not their posterior.)", "quantifier": "all models with legal smoothing parameters, both variants (with and without fixed NULL probability), all sentence pairs", "why_tests_cant": "the forward-backward recursion must equal a sum over exponentially many state paths for every sentence length and parameter table", "anchors": ["src/sw_models/_incrHmmAligModel.cc:calc_lanji", "src/sw_models/_incrHmmAligModel.cc:calc_lanjm1ip_anji", "src/sw_models/_incrHmmP0AligModel.cc:extendWithNullWordAlig"]}
{"id": "C106", "title": "HMM incremental EM over any history", "statement": "After any sequence of added sentence pairs and training passes over ranges, the transition and lexical probabilities the HMM model answers are the smoothed relative frequencies of the expected counts where every pair contributes exactly its most recent expectations, computed with the parameters before that pass; batch training yields the counts of the range alone. (Transitions out of NULL states are counted in rows no query reads.)", "quantifier": "all legal sessions, both variants, all corpora and ranges", "why_tests_cant": "incremental replacement of old by new contributions in log space must cancel exactly over unbounded histories", "anchors": ["src/sw_models/_incrHmmAligModel.cc:trainSentPairRange", "src/sw_models/_incrHmmAligModel.cc:calcNewLocalSuffStats", "src/sw_models/_incrHmmAligModel.cc:updateParsLex", "src/sw_models/_incrHmmAligModel.cc:updateParsAlig", "src/sw_models/_incrHmmAligModel.cc:efficientBatchTrainingForRange"]}
{"id": "C107", "title": "Trained HMM parameters are distributions", "statement": "After any session, for every source length of a trained pair (with two target words, or one for the initial row), the transition probabilities out of every state sum to one; the lexical probabilities of every trained source word and of NULL sum to one over the target vocabulary up to exp(-99999) per word never seen with it.", "quantifier": "all legal sessions, all trained pairs, all states", "why_tests_cant": "normalisation must survive every history of incremental updates", "anchors": ["src/sw_models/_incrHmmAligModel.cc:updateParsAlig", "src/sw_models/_incrHmmAligModel.cc:logaProb", "src/sw_models/_incrHmmAligModel.cc:logpts"]}
{"id": "C108", "title": "Phrase model counts: words in, counts out; training counts every extracted pair once", "statement": "After any sequence of strIncrCountsOfEntry and strAddTableEntry calls the counts c(s), c(t), c(s,t) asked with words are those the calls prescribe, whatever words the phrases use; after training on a word-aligned corpus they are, for each sentence pair, its number of repetitions times the number of extracted span pairs with these words (the consistent spans of C42, same number of category tags on both sides, nothing for sentences over 100 words). Training in pieces or from vectors gives the same as training at once.", "quantifier": "all histories of calls, all phrases, all corpora with 0/1 alignments and non-empty source sentences, vocabularies of at most 254^3 words, phrases without the reserved word <UNUSED_WORD> (shown necessary)", "why_tests_cant": "unbounded corpora, vocabularies and histories; the table shares key space between three kinds of counts", "anchors": ["src/phrase_models/_incrPhraseModel.cc: strAddTableEntry, strIncrCountsOfEntry, cHSrcHTrg, cHSrc, cHTrg", "src/phrase_models/_wbaIncrPhraseModel.cc: extendModelFromPairPlusAlig, storePhrasePairs, extendModelFromAlignments, extModelFromPairAligVec", "src/phrase_models/CategPhrasePairFilter.cc: phrasePairIsOk"]}
{"id": "C109", "title": "Phrase probabilities are the relative frequencies and sum to one", "statement": "The phrase model's log-probabilities of t given s and of s given t are the logarithms of c(s,t)/c(s) and c(s,t)/c(t), never below 1e-10, and exactly 1e-10 for a pair never seen; the translations of a seen source phrase (count at most 10^10) have probabilities summing to one, and so have the sources of a seen target phrase.", "quantifier": "all training histories and phrases", "why_tests_cant": "for every table of counts; sums over all translations", "anchors": ["src/phrase_models/_incrPhraseModel.cc: logpt_s_, logps_t_", "src/phrase_models/HatTriePhraseTable.cc: pTrgGivenSrc, pSrcGivenTrg"]}
{"id": "C110", "title": "A phrase table written to a file and read back has the same counts", "statement": "Printing the table gives exactly one line for every phrase pair seen in training, with its counts c(s) and c(s,t); loading a file with these lines, in whatever order the hash table produced them, gives a model with the same c(s), c(t) and c(s,t) for all phrases.", "quantifier": "all non-empty training histories of non-empty phrases whose words have no blank, newline, NUL and are not ||| (necessary: the empty table, the word ||| and the empty source phrase are refuted); all iteration orders; integral counts", "why_tests_cant": "hash order and file order are arbitrary; c(t) is rebuilt by summation", "anchors": ["src/phrase_models/WbaIncrPhraseModel.cc: printTTable", "src/phrase_models/_incrPhraseModel.cc: loadPlainTextTTable", "src/phrase_models/HatTriePhraseTable.cc: begin, operator++, getEntriesForTarget"]}
{"id": "C111", "title": "Numbers written to text files keep six significant digits", "statement": "A score written with the default stream format and read back with atof differs from the original by at most 5e-6 of its absolute value, is unchanged if it has at most six significant decimal digits, and writing the value read gives the same text again; the text is a single non-empty field.", "quantifier": "all rational (hence all finite double) values", "why_tests_cant": "infinitely many values, decimal exponents and rounding cases (carries, ties, exponent notation)", "anchors": ["src/error_correction/WordGraph.cc: print, load"]}
{"id": "C112", "title": "A word graph written to a file and read back is the same word graph", "statement": "Printing a word graph and loading the file gives a graph with the unpruned arcs in the same order (same states, words; scores, components and weights up to the printed precision), the final states that an unpruned arc enters, consistent state tables, no out-of-range access, and printing it again gives the same file.", "quantifier": "all histories of graph construction and pruning; words without blanks, newline or NUL; no arc without components starting with the word |||; arcs forward or nothing pruned (each exception shown by a refuted variant, as are the initial-state score and final states without incoming arcs)", "why_tests_cant": "unbounded graphs and histories; text format with optional parts", "anchors": ["src/error_correction/WordGraph.cc: print, load, finalStatePruned, addArcWithScrComps, addFinalState"]}
{"id": "C113", "title": "Setting component weights rescores the word graph", "statement": "After setting component weights every arc with as many components as weights has the weighted sum of its components as score, all other arcs and everything else in the graph are unchanged, and the last weights set win.", "quantifier": "all graphs and weight vectors", "why_tests_cant": "arbitrary graphs and vectors", "anchors": ["src/error_correction/WordGraph.cc: setCompWeights, rescoreArcsGivenWeights"]}
{"id": "C114", "title": "Alignment files are read back as they were printed", "statement": "For every list of sentence pairs with their word alignments (words without blanks, no source word written ({, counts of a link being any unsigned value), printing them one after the other in GIZA format and reading the file with the alignment extractor delivers the same entries in the same order: same sentences, same matrix cell by cell, the number of repetitions as printed by %g. The list written after the NULL word holds exactly the target words without link; after source word i each linked position, once per count.", "quantifier": "all lists of sentence pairs, alignment matrices and repetition numbers", "why_tests_cant": "sentences, matrices and counts are unbounded and the reader is a token scanner whose state depends on every earlier token", "anchors": ["src/phrase_models/AlignmentExtractor.cc:getNextAlignInGIZAFormat", "src/nlp_common/printAligFuncs.cc:printAlignmentInGIZAFormat"]}
{"id": "C115", "title": "Operations on two alignment files combine them entry by entry", "statement": "join, intersect, sum, symmetr1, symmetr2 and growDiagFinal on two alignment files, with or without transposing the second, write one entry per pair of entries up to the end of the shorter file; its sentences and repetitions are those of the first file and, when the two sentence pairs agree (after transposition), its alignment is the union, the intersection, the sum, respectively a symmetrization lying between intersection and union with the stated maximality; when they disagree the first alignment is written unchanged. The written file can be read back.", "quantifier": "all pairs of alignment files, operations and transposition flags", "why_tests_cant": "the result ranges over all pairs of files and all matrices", "anchors": ["src/phrase_models/AlignmentExtractor.cc:join", "src/phrase_models/AlignmentExtractor.cc:intersect", "src/phrase_models/AlignmentExtractor.cc:sum", "src/phrase_models/AlignmentExtractor.cc:symmetr1", "src/phrase_models/AlignmentExtractor.cc:growDiagFinal", "src/phrase_models/AlignmentExtractor.cc:transposeAlig"]}
{"id": "C116", "title": "Damaged alignment files never take an operation outside its matrices", "statement": "Reading any file whose numbers fit an int, however malformed (missing lines, unbalanced braces, positions out of range), and operating on any two such files, ends without accessing a cell outside a matrix; every entry delivered has no more source words than matrix rows and as many target words as columns. (Refuted in the code: damage is not reported; an entry with a position out of range is delivered as read, without its remaining words, and the output written for it stops later readers.)", "quantifier": "all byte strings as file contents", "why_tests_cant": "malformed inputs cannot be enumerated", "anchors": ["src/phrase_models/AlignmentExtractor.cc:getNextAlignInGIZAFormat", "src/phrase_models/AlignmentExtractor.cc:join"]}
{"id": "C117", "title": "Alignments in matrix format are read back as they were printed", "statement": "For every list of sentence pairs with matrices whose cells fit an int, printing them in the matrix format and reading them with the extractor in that format delivers the same sentences, cells and repetition numbers in the same order.", "quantifier": "all lists of sentence pairs, matrices and repetition numbers", "why_tests_cant": "sentences and matrices are unbounded", "anchors": ["src/phrase_models/AlignmentExtractor.cc:getNextAlignInAlignOpFormat", "src/nlp_common/printAligFuncs.cc:printAlignmentInMyFormat"]}
{"id": "C118", "title": "A container filled from an alignment file and printed compactly", "statement": "Filling an alignment container from a file and printing it compactly produces a readable alignment file in which every sentence pair of the file (with source and target exchanged if requested) appears exactly once, with the number of its entries as repetition count and the alignment of its first entry. (Refuted in the code: the repetition counts written in the file itself are ignored, an entry with count 3 is counted once.)", "quantifier": "all alignment files with printable sentences, both transposition flags", "why_tests_cant": "files, vocabularies and the ordered map of numbered sentences are unbounded", "anchors": ["src/phrase_models/AlignmentContainer.cc:extractAlignmentsFromGIZAFile", "src/phrase_models/AlignmentContainer.cc:printCompact", "src/phrase_models/AlignmentContainer.cc:vecString2VecUnsigInt", "src/phrase_models/VecUnsignedIntSortCriterion.h"]}
{"id": "C119", "title": "Operations on an alignment container reach exactly the pairs of the files", "statement": "After any sequence of join, intersect, sum, symmetr1, symmetr2 and growDiagFinal calls on a container, each with its own file and transposition flag, the container prints the same sentence pairs and counts as before; the alignment of a pair is that of its first entry combined, in order, with every entry of the same pair in each file, and entries of other pairs change nothing.", "quantifier": "all alignment files, sequences of calls and transposition flags", "why_tests_cant": "sequences of calls and files are unbounded", "anchors": ["src/phrase_models/AlignmentContainer.cc:join", "src/phrase_models/AlignmentContainer.cc:intersect", "src/phrase_models/AlignmentContainer.cc:sum", "src/phrase_models/AlignmentContainer.cc:symmetr1", "src/phrase_models/AlignmentContainer.cc:symmetr2", "src/phrase_models/AlignmentContainer.cc:growDiagFinal"]}
{"id": "C120", "title": "A container printed against the file it was filled from", "statement": "Printing a container (filled without exchanging source and target, after any sequence of operations) in non-compact form produces a readable alignment file with one entry for each entry of the original file, in the same order and with the same sentences, each with the alignment kept for its pair. (Refuted in the code: filled with source and target exchanged, the container is compared with the untransposed file and entries are lost.)", "quantifier": "all alignment files and sequences of calls", "why_tests_cant": "files and sequences of calls are unbounded", "anchors": ["src/phrase_models/AlignmentContainer.cc:printNoCompact"]}
{"id": "C121", "title": "Word error rate counts the fewest word edits", "statement": "The sentence word-error score is one minus the least number of word insertions, deletions and substitutions turning the candidate into the reference, per reference word; it is at most one and equals one exactly when the words are the same; the background score is the same value times the reference length; over a corpus edits and reference words are summed before dividing, and more candidates than references is an access out of range. (Refuted in the code: with an empty reference the score is 0 whatever the candidate, so identical empty sentences do not score one.)", "quantifier": "all pairs of sentences and all corpora", "why_tests_cant": "sentences and corpora are unbounded", "anchors": ["src/stack_dec/MiraWer.cc:ed", "src/stack_dec/MiraWer.cc:sentScore", "src/stack_dec/MiraWer.cc:corpusScore"]}
{"id": "C122", "title": "The general text matcher counts the words in common", "statement": "For every pair of sentences, and whatever order std::sort leaves equal sizes in, the matches found by the general text matcher are exactly the words the sentences have in common, counted with multiplicity; the score is twice the matches over the total number of words, lies in (0,1], equals one exactly when the sentences are permutations of each other and never depends on the order of the words; over a corpus the counts are summed. (Refuted in the code: with no word in common, or an empty sentence, the score is 0/0, not a number.)", "quantifier": "all sentences, corpora and outcomes of an unstable sort", "why_tests_cant": "the sort order and the sentences are unbounded", "anchors": ["src/stack_dec/MiraGtm.cc:sorted_common_ngrams", "src/stack_dec/MiraGtm.cc:statsForSentence", "src/stack_dec/MiraGtm.cc:scoreFromStats", "src/stack_dec/MiraGtm.cc:corpusScore"]}
{"id": "C123", "title": "chrF lies between 0 and 1 and is 1 only for texts with the same n-grams", "statement": "The chrF score of a candidate is defined for every pair of lines, follows the F-measure (beta 3) of the mean clipped shares of character n-grams of length one to four, lies between 0 and 1, is 1 exactly when the two texts (words joined by single blanks) have the same multiset of n-grams of every length up to four and 0 exactly when they are not both empty and share no character; a corpus scores the mean of its sentences. (Refuted in the code: the mean precision is not at most one; lengths the candidate is too short for count as precision one but not in the denominator, so candidates shorter than four characters get a mean precision up to 4.)", "quantifier": "all pairs of lines and all corpora", "why_tests_cant": "texts are unbounded; the characterization of scores 0 and 1 quantifies over all texts", "anchors": ["src/stack_dec/chrf.cc:calculate_chrf", "src/stack_dec/chrf.cc:count_ngrams", "src/stack_dec/MiraChrF.cc:corpusScore"]}
{"id": "C124", "title": "Batch MIRA returns the best evaluated average", "statement": "For example sets whose n-best lists are not empty and whose feature vectors have one entry per weight, KbMira weight tuning (update and updateClosedCorpus) always ends with a result, and the result is the weights of highest positive quality among the evaluated averages; every evaluated average is the mean of weights reached from the given ones by steps, and every step gives the unique weights that minimize half the squared distance plus C times the hinge loss of hope against fear. If no evaluated average has a positive quality the returned weights are empty.", "quantifier": "all scorers (any background state), n-best lists, features, weights, C >= 0, restart and iteration limits, random sequences", "why_tests_cant": "A test fixes the n-best lists and the random seed; optimality of a step is a statement about every other weight vector.", "anchors": ["src/stack_dec/KbMiraLlWu.cc:KbMiraLlWu::update", "src/stack_dec/KbMiraLlWu.cc:KbMiraLlWu::updateClosedCorpus", "src/stack_dec/BaseMiraScorer.h:BaseMiraScorer"]}
{"id": "C125", "title": "Hope, fear and best hypotheses", "statement": "Batch MIRA takes as translation the first hypothesis of maximal model score, as hope the first one maximizing score plus quality and as fear the first one maximizing score minus quality; the hope is never of lower quality than the fear.", "quantifier": "all n-best lists, weights, references, scorers", "why_tests_cant": "Ties and orders of an n-best list are unbounded.", "anchors": ["src/stack_dec/KbMiraLlWu.cc:KbMiraLlWu::MaxTranslation", "src/stack_dec/KbMiraLlWu.cc:KbMiraLlWu::HopeFear"]}
{"id": "C126", "title": "Example order of batch MIRA", "statement": "For every sequence of random numbers the order in which an epoch visits the examples is a permutation of all of them; it consists of a single cycle, so no example ever keeps its position and orders with several cycles never come up.", "quantifier": "all numbers of examples, all random sequences", "why_tests_cant": "Runs under a fixed seed see only a few orders.", "anchors": ["src/stack_dec/KbMiraLlWu.cc:KbMiraLlWu::sampleWoReplacement"]}
{"id": "C127", "title": "Step-by-step minimization is resumable and ends", "statement": "thot_dhs_step_by_step_min is run again and again on the file of function values found so far. For every function of the point, the requested points are determined (any two histories agree as far as they go, so a search resumed from a saved file continues exactly where it was), after at most n + 2 + 5 * MAX_IT requests the answer is a result, and values behind the last one needed do not change it.", "quantifier": "all functions, start points, numbers of variables, tolerances and iteration limits, all histories", "why_tests_cant": "The tool keeps no state between runs: the claim is about every prefix of every history of values.", "anchors": ["src/downhill_simplex/step_by_step_dhs.c:step_by_step_simplex", "src/downhill_simplex/step_by_step_dhs.c:get_next_funk", "src/downhill_simplex/step_by_step_dhs.c:step_by_step_objfunc", "utils/downhill_simplex/thot_dhs_min.sh:main"]}
{"id": "C128", "title": "The minimum found is the best point tried", "statement": "When the downhill simplex ends, its value is the function's value at the returned point, the point was requested before, no requested point (the start included) has a smaller value. A search that converges in the last allowed iteration is reported as having exceeded the limit.", "quantifier": "all functions, start points, tolerances, limits", "why_tests_cant": "The invariant must survive every sequence of reflections, expansions, contractions and shrinks.", "anchors": ["src/downhill_simplex/step_by_step_dhs.c:step_by_step_simplex"]}
{"id": "C129", "title": "Moves of the simplex", "statement": "In an iteration on a simplex whose values are not all equal the first request is the reflection of a worst vertex through the centre of the others; a better value than the best leads to the point twice as far, a value between the best and the second largest is accepted, another leads to the contraction point outside or inside; the vertex is replaced by the better point, or all vertices move halfway to the best one and the worst and second worst are evaluated again. The other moved vertices keep the values of the points they left, and the search may stop as converged on such values.", "quantifier": "all simplexes, functions, numbers of variables", "why_tests_cant": "The branches depend on real values of an arbitrary function.", "anchors": ["src/downhill_simplex/step_by_step_dhs.c:step_by_step_simplex"]}
{"id": "C130", "title": "Fixed and free variables of the minimizer", "statement": "Every printed vector has the fixed variables at their given values and the coordinates of the point in order at the free ones; initial values are taken at the free positions; without them all free variables start with equal values that sum to one. More initial values than variables are read out of range.", "quantifier": "all patterns of fixed and free variables, points, initial values", "why_tests_cant": "Patterns of variables are unbounded.", "anchors": ["src/downhill_simplex/thot_dhs_step_by_step_min.cc:xToVarVec", "src/downhill_simplex/thot_dhs_step_by_step_min.cc:gen_init_sol", "src/downhill_simplex/thot_dhs_step_by_step_min.cc:getNumDims"]}
{"id": "C131", "title": "Merging an interactive translation with the typed prefix keeps the prefix and the words", "statement": "Without pre/post-processing, the text shown after the user typed a prefix is the prefix itself, character by character, followed by the rest of the translator's answer, so that the text has exactly the words of the answer; if the answer does not contain the prefix, only the prefix is shown.", "quantifier": "every prefix and every answer of the translator", "why_tests_cant": "Texts, prefixes and blanks combine without bound, and the translator, post-processor and predictor may answer anything; tests fix a few strings.", "anchors": ["stack_dec/ThotDecoder.cc: ThotDecoder::robustMergeTransWithUserPref", "nlp_common/StrProcUtils.cc: isPrefixStrVec, stringToStringVector"]}
{"id": "C132", "title": "Whatever the engine answers, the typed prefix is kept and shown", "statement": "After any sequence of startCat, addStrToPref, setPref and resetPrefix calls the prefix kept for a user is what the user typed, and every text shown begins with it, whatever the translator, pre/post-processor and word predictor answer; every call is well defined.", "quantifier": "every session and all answers of the translator, pre/post-processor and predictor", "why_tests_cant": "Texts, prefixes and blanks combine without bound, and the translator, post-processor and predictor may answer anything; tests fix a few strings.", "anchors": ["stack_dec/ThotDecoder.cc: ThotDecoder::startCat, addStrToPrefAux, setPref, resetPrefixAux, robustObtainFinalOutput, postprocWithCriticalError, robustMergePostProcTransWithUserPref"]}
{"id": "C133", "title": "A neutral pre/post-processor changes nothing", "statement": "With a pre/post-processor that returns its input, setting a prefix of the translator's answer shows that answer (except for one blank at its very end).", "quantifier": "every prefix, answer and earlier state", "why_tests_cant": "Texts, prefixes and blanks combine without bound, and the translator, post-processor and predictor may answer anything; tests fix a few strings.", "anchors": ["stack_dec/ThotDecoder.cc: ThotDecoder::postprocWithCriticalError, robustObtainFinalOutput", "smt_preproc/SmtPreprocDefs.h: END_OF_PREF_MARK"]}
{"id": "C134", "title": "Completion of the word being typed", "statement": "The unfinished last word of the prefix is completed only when at least two letters of it are typed; the predictor is asked for the suffix given that word and the at most two words before it, and its suffix followed by a blank is appended. The completion of a started word is the rest of the complete word if that begins with what was typed, and empty otherwise.", "quantifier": "every prefix and predictor", "why_tests_cant": "Texts, prefixes and blanks combine without bound, and the translator, post-processor and predictor may answer anything; tests fix a few strings.", "anchors": ["stack_dec/ThotDecoder.cc: ThotDecoder::expandLastWord, getWordCompletion", "stack_dec/ThotDecoder.h: MINIMUM_WORD_LENGTH_TO_EXPAND"]}
{"id": "C135", "title": "A trie is a map from key sequences", "statement": "After any insertions a trie returns for a sequence the data last inserted for it, the default value for a sequence that only begins inserted ones, and nothing otherwise; writing one entry changes no other; findV returns the data of the successive prefixes of a sequence; a cleared trie behaves like a new one.", "quantifier": "every list of insertions, every sequence, any key and data type", "why_tests_cant": "Tries grow with the data; the claims are about every set of sequences and every history of operations.", "anchors": ["nlp_common/Trie.h: Trie::insert, find, getState, findV, clear"]}
{"id": "C136", "title": "Trie traversal and shape", "statement": "Iterating over a trie gives every stored sequence exactly once, with its data, each after its extensions; size, height and branchingFactor are the number of stored sequences, the greatest length and the number of sequences of each length.", "quantifier": "every trie made by insertions, assignments and clear", "why_tests_cant": "Tries grow with the data; the claims are about every set of sequences and every history of operations.", "anchors": ["nlp_common/Trie.h: const_iterator, begin, operator++, size, height, branchingFactor"]}
{"id": "C137", "title": "The word predictor proposes the most frequent known word", "statement": "For every input the suffix list holds, by strictly decreasing count, suffixes that complete the input to known words, with their number of occurrences in the training sentences, and the best suffix completes it to a most frequent known word with that beginning (count 0 if none). Added sentences take effect in complete blocks of numSentsToRetain; clear() forgets everything.", "quantifier": "every training text, every sequence of added sentences, every input", "why_tests_cant": "Tries grow with the data; the claims are about every set of sequences and every history of operations.", "anchors": ["incr_models/WordPredictor.cc: WordPredictor::addSentence, addSentenceAux, getSuffixList, getBestSuffix, load, clear"]}
{"id": "C138", "title": "Model file names are resolved relative to their descriptor", "statement": "The directory of a file name is everything up to its last slash (nothing if there is none); a relative model file name in a descriptor is taken in the descriptor's directory, an absolute one is kept, and the library-directory variable is replaced exactly when a library name begins with it.", "quantifier": "all descriptor names, model names, library names and library directories", "why_tests_cant": "file names are unbounded", "anchors": ["src/nlp_common/ModelDescriptorUtils.cc:extractDirName", "src/nlp_common/ModelDescriptorUtils.cc:absolutizeModelFileName", "src/nlp_common/StrProcUtils.cc:expandLibDirIfFound"]}
{"id": "C139", "title": "A model descriptor that is written is read back entry by entry", "statement": "Reading a descriptor written by printModelDescriptor gives the same entries (library with parameters, model file, status) in order; text after a # and lines starting with # mean nothing; a file without descriptor header is rejected.", "quantifier": "all lists of model entries and all lines of a descriptor file", "why_tests_cant": "any number of entries, any words", "anchors": ["src/nlp_common/ModelDescriptorUtils.cc:extractModelEntryInfo", "src/nlp_common/ModelDescriptorUtils.cc:printModelDescriptor", "src/nlp_common/ModelDescriptorUtils.cc:fileIsDescriptor"]}
{"id": "C140", "title": "The main model of a descriptor is the first entry whose status is main", "statement": "fileIsDescriptor reports as main file the file of the first entry with status main, and none if there is no such entry.", "quantifier": "all lists of model entries", "why_tests_cant": "any number of entries, any words", "anchors": ["src/nlp_common/ModelDescriptorUtils.cc:fileIsDescriptor"]}
{"id": "C141", "title": "The word-graph handler finds the word graph of a sentence, and survives print and load", "statement": "After loading a handler file a sentence has the word graph of the last line for it and no other sentence has one, the sentences are listed in dictionary order, and printing and loading the table gives the same table.", "quantifier": "all handler files, tables and sentences", "why_tests_cant": "any number of lines and sentences", "anchors": ["src/error_correction/WgHandler.cc:load", "src/error_correction/WgHandler.cc:print", "src/error_correction/WgHandler.cc:pathAssociatedToSentence"]}
{"id": "C142", "title": "Segmentation-length probabilities are relative frequencies and survive print and load", "statement": "After any sequence of counted observations the probability of k segments for a target length is its relative frequency, these sum to one for each observed length, a printed table is loaded with the same probabilities, and lengths beyond the table are answered without reading outside it.", "quantifier": "all sequences of observations and all lengths", "why_tests_cant": "any number of observations", "anchors": ["src/phrase_models/SegLenTable.cc:pk_tlen", "src/phrase_models/SegLenTable.cc:load_seglentable", "src/phrase_models/SegLenTable.cc:printSegmLengthTable"]}
{"id": "C143", "title": "Language-model heuristics of forced and prefix decoding are exact", "statement": "The vector of accumulated scores of a sentence holds the weighted log-probability of each of its beginnings; the heuristic value for a partial translation is the score of the words of the reference that are left, and of its end, so that achieved score plus heuristic is constant along the reference; with a user prefix the same until the prefix is covered and nothing afterwards; a cached vector gives the same values.", "quantifier": "every list of language-model features and weights, every sentence, every partial length, every order of queries", "why_tests_cant": "the sum over remaining words must agree with the incremental scores of every feature for every sentence and split; tests run single short sentences", "anchors": ["src/stack_dec/LangModelFeat.h:scoreTrgSentence", "src/stack_dec/_pbTransModel.h:calcRefLmHeurScore,calcPrefLmHeurScore"]}
{"id": "C144", "title": "Word completion in context proposes the most probable candidate", "statement": "Of the suffixes the predictor lists for an unfinished word, the one whose word is most probable after the given words is proposed, the first one of equals, and none if there is none; with a trained predictor the proposal makes a known word with its number of occurrences; the last two words of the text suffice as context for models with at most two words of state.", "quantifier": "every language model, history, training text and input", "why_tests_cant": "requires comparing with every candidate for every model and history", "anchors": ["src/stack_dec/LangModelFeat.h:getBestSuffixGivenHist", "src/nlp_common/WordPredictor.cc:getSuffixList", "src/stack_dec/_pbTransModel.h"]}
{"id": "C145", "title": "Interpolated phrase probabilities", "statement": "With a weight in [0,1) the score of a phrase pair is a number whose exponential is within 1e-10 of weight times phrase-table probability plus the rest times lexical probability, exactly so when the weighted table probability exceeds 1e-10; weight 1 gives the table alone; the objective of tuning is minus the average of both scores over all pairs.", "quantifier": "all weights, probabilities and lists of phrase pairs", "why_tests_cant": "the bound is over a continuum of weights and probabilities including zeros", "anchors": ["src/stack_dec/DirectPhraseModelFeat.h:directPhrTransUnweightedScore", "src/stack_dec/InversePhraseModelFeat.h:inversePhrTransUnweightedScore", "src/stack_dec/WeightUpdateUtils.cc:phraseModelPerplexity"]}
{"id": "C146", "title": "Tuning of interpolation weights ends and never makes them worse", "statement": "Updating the interpolation weights of the language model or the phrase model ends after a bounded number of evaluations whatever they give; if not successful the initial weights are restored; if successful the weights were evaluated, lie in [0,1) when the initial ones did, and their perplexity is at most that of the initial ones up to the six digits of the intermediate file.", "quantifier": "every objective function, number of weights, tolerance and limit of iterations", "why_tests_cant": "the objective is an arbitrary function of the corpus; termination and monotonicity cannot be sampled", "anchors": ["src/incr_models/_incrJelMerNgramLM.h:updateModelWeights,new_dhs_eval", "src/stack_dec/WeightUpdateUtils.cc:updatePmLinInterpWeights,linInterpWeightsDhsEval", "src/nlp_common/step_by_step_dhs.cc"]}
{"id": "C147", "title": "A dictionary file gives each phrase pair the score of its last line", "statement": "After loading a dictionary file of entries, a phrase pair has the score of its last line, any other pair the smoothing value; the translation options of a source phrase are exactly the target phrases with an entry for it, each once; a missing file is reported.", "quantifier": "every dictionary file, every phrase pair", "why_tests_cant": "the property ranges over all files, repetitions and queries", "anchors": ["src/stack_dec/DictFeat.h:load,extractEntryInfo,insertEntry,scorePhrasePairUnweighted,obtainTransOptions"]}
{"id": "C148", "title": "The on-the-fly dictionary holds what was added last since the last clearing", "statement": "After any history of additions and clearings a phrase pair has the score and information of its last addition since the last clearing; other pairs score 0 and have no information; the options of a source phrase are exactly the targets added, each once; an addition changes no other pair.", "quantifier": "every history of calls, every query", "why_tests_cant": "histories are unbounded", "anchors": ["src/stack_dec/OnTheFlyDictFeat.h:addTransOption,clearDict,scorePhrasePairUnweighted,getTransOptInfo,obtainTransOptions"]}
{"id": "C149", "title": "Correcting a whole sentence keeps what the user typed", "statement": "With nothing typed the sentence is returned unchanged with probability one; otherwise exactly one correction is returned, scored with the similarity to the typed text, whose words begin with the typed ones, the last unfinished one continued; after a finished last word the last word of the sentence may carry the blank.", "quantifier": "every sentence, typed text and error model", "why_tests_cant": "all alignments between sentence and typed text must preserve the typed text", "anchors": ["src/error_correction/NonPbEcModelForNbUcat.cc:correct,nonPhraseBasedAlign,correctedSent", "src/error_correction/PfsmEcm.cc:correctStrGivenPref"]}
{"id": "C150", "title": "A JSON source sentence is read as its words and its tags in order", "statement": "For a sentence given as a JSON document, the source words are those of src_title.preprocessed and each usable tag of tex_segmentation, in order, is attached to the first occurrence of its phrase after the previous tag's; the constraints obtained lie inside the sentence, do not overlap, cover exactly the words of a tag's original text and carry its translation. Text that is not a JSON object is used as the sentence itself.", "quantifier": "every title, every list of tags (any texts, missing fields, blanks), every sentence", "why_tests_cant": "a test fixes a few documents; the outcome depends on how every phrase may recur in the sentence and on the order of the tags", "anchors": ["src/stack_dec/JsonTranslationMetadata.h: obtainTransConstraints, addTranslations, isPhraseInSentence, containsOnlyWhitespaces"]}
{"id": "C151", "title": "All JSON tags given in sentence order take effect", "statement": "If the phrases of the usable tags occur in the sentence in the order of the tags and without overlapping, every tag yields a constraint, and only then; refuted without that premise: a phrase that is not found drops all later tags, a phrase sticking out over the end of the sentence by one word makes the comparison read outside the sentence, and an array element that is not an object fails the whole request.", "quantifier": "every sentence, every list of tags", "why_tests_cant": "greedy matching over all positions; the out-of-bounds read does not show in a test unless memory is instrumented", "anchors": ["src/stack_dec/JsonTranslationMetadata.h: addTranslations, isPhraseInSentence, obtainTransConstraints"]}
{"id": "C152", "title": "Each feature is scored with its own weight", "statement": "After any history of weight changes and translations, the model lists every feature once (standard, custom, then those of the current sentence), each with the weight at its place in the weights in force: those the sentence brought, otherwise those set last; 1 where the weights run out. Those are the weights hypotheses are scored with, and the weights of one sentence do not affect the next.", "quantifier": "every history of weight settings and translations, any features and weight vectors of any length", "why_tests_cant": "the sets of features and the vectors vary from sentence to sentence; only a proof covers every order of events", "anchors": ["src/stack_dec/_pbTransModel.h: setWeights, initFeatWeights, getWeights, pre_trans_actions, getStdFeatWeight, getCustomFeatWeight, getOnTheFlyFeatWeight, getNumWeights"]}
{"id": "C153", "title": "Online weight training assigns the updater's weights in feature order, and keeps the weights without hypotheses", "statement": "After online training of the weights each feature has the weight at its place in the updater's result for the reference, the n-best sentences and the listed weights; with an empty n-best list all listed weights stay. Refuted for later sentences: per-sentence weights become the default, and weights beyond the current features are lost.", "quantifier": "every updater, n-best list, model state", "why_tests_cant": "depends on the history of weights and on every updater", "anchors": ["src/stack_dec/WeightUpdateUtils.cc: updateLogLinearWeights", "src/stack_dec/ThotDecoder.cc: onlineTrainLogLinWeights"]}
{"id": "C154", "title": "Interpolation weight files round-trip", "statement": "A printed file with the two interpolation weights of the single-word models is read back as printed (six significant digits, exact for such numbers, same order), and printing that again gives the same file; one field stands for both weights; any other first line, an empty or a missing file is an error and leaves the weights unchanged.", "quantifier": "every pair of weights, every file", "why_tests_cant": "all numbers and all texts", "anchors": ["src/stack_dec/SmtModelUtils.cc: loadSwmLambdas, printSwmLambdas"]}
{"id": "C155", "title": "Online learning counts each phrase pair once", "statement": "After any number of online training calls, the phrase table counts are the initial counts plus, for each sentence pair given, the phrase pairs extracted from it at its last visit, once for each occurrence: what earlier visits added is taken back, whatever the alignment models made of the sentence at each visit.", "quantifier": "all sequences of sentence pairs, all extraction results at every visit, all E >= 1 and R that is a multiple of E", "why_tests_cant": "Depends on the whole history of interleaved visits and on the discarding of remembered statistics.", "anchors": ["src/stack_dec/StdFeatureHandler.cc:trainAligModel, addNewTransOpts, map_n_am_suff_stats"]}
{"id": "C156", "title": "Schedule of the online learning iterations", "statement": "A sentence pair given for online training is learned from as it arrives and then again every R/E sentence pairs, E times in all, and at no other time.", "quantifier": "all E >= 1, R multiple of E, all sample numbers", "why_tests_cant": "Quantifies over all parameter values and all positions in the training history.", "anchors": ["src/stack_dec/StdFeatureHandler.cc:trainAligModel", "src/stack_dec/OnlineTrainingPars.h"]}
{"id": "C157", "title": "Scripts of alignment operations", "statement": "Running a script of alignment operations carries out its steps in order, each on the result of the one before, leaves the result of the last step in the output file and touches no other file.", "quantifier": "all scripts, all files they name, any contents", "why_tests_cant": "Any number of steps with any file contents; includes scripts with a damaged last line, missing files and unknown operations.", "anchors": ["src/phrase_models/thot_alig_op.cc:parseAlignOpsFile, fileCopy", "src/phrase_models/AlignmentExtractor.cc:join, intersect, sum, symmetr1, symmetr2, growDiagFinal"]}
{"id": "C158", "title": "Scripts on well-formed alignment files succeed", "statement": "On files of well-formed alignments every script of alignment operations succeeds and the output file has, entry by entry, the combination of alignments that the steps ask for.", "quantifier": "all scripts, all lists of well-formed alignments", "why_tests_cant": "Quantifies over all scripts and all alignment files.", "anchors": ["src/phrase_models/thot_alig_op.cc:parseAlignOpsFile", "src/phrase_models/AlignmentExtractor.cc"]}
{"id": "C159", "title": "Scripts of alignment operations on a container", "statement": "With -exhaustive, a script of alignment operations does to the alignment of every sentence pair what its steps say, one after the other, and the output has every sentence pair once.", "quantifier": "all scripts, all alignment files", "why_tests_cant": "Quantifies over all scripts and all contents of all files named.", "anchors": ["src/phrase_models/thot_alig_op.cc:main, parseAlignOpsFile", "src/phrase_models/AlignmentContainer.cc"]}
