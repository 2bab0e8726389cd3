(** Text handling and vocabularies: C20, C21, C22, C23, C24, C53, C54. *)
From Coq Require Import Ascii String Arith NArith List Bool Lia Permutation.
From Verif Require Import TextSpec TextModel TextProofs AMap VocabSpec VocabModel VocabProofs.
Import ListNotations.

(** C20: after adding any words, the vocabulary is the list of distinct words in order of first use *)
Theorem C20_vocabulary_contents : forall ws, let v := snd (strVectorToIndexVector ws clear_voc) in let names := names_after ws in
  NoDup names /\ (forall w, In w names <-> In w reserved \/ In w ws) /\ vocabSize v = length names /\
  map Some (fst (strVectorToIndexVector ws clear_voc)) = map (fun w => position w names) ws /\
  (forall w, stringToWordIndex w v = match position w names with Some i => i | None => 1 end) /\
  (forall i, wordIndexToString i v = nth i names (T "UNKNOWN_WORD")) /\
  (forall w, existSymbol w v = true <-> In w names).
Proof. exact vocab_after_adds. Qed.
Print Assumptions C20_vocabulary_contents.

Theorem C20_vocabulary_bijection : forall ws, let v := snd (strVectorToIndexVector ws clear_voc) in
  (forall a b, existSymbol a v = true -> existSymbol b v = true -> stringToWordIndex a v = stringToWordIndex b v -> a = b) /\
  (forall w, existSymbol w v = true -> wordIndexToString (stringToWordIndex w v) v = w) /\
  (forall i, i < vocabSize v -> existSymbol (wordIndexToString i v) v = true /\ stringToWordIndex (wordIndexToString i v) v = i) /\
  (forall w, existSymbol w v = false -> stringToWordIndex w v = 1) /\
  (forall ws' w, existSymbol w v = true -> stringToWordIndex w (snd (strVectorToIndexVector (ws ++ ws') clear_voc)) = stringToWordIndex w v).
Proof. exact vocab_bijection. Qed.
Print Assumptions C20_vocabulary_bijection.

Example C20_nonvacuous : let v := snd (strVectorToIndexVector [T "the"; T "house"; T "the"; T "NULL"; T "is"] clear_voc) in
  fst (strVectorToIndexVector [T "the"; T "house"; T "the"; T "NULL"; T "is"] clear_voc) = [3; 4; 3; 0; 5] /\
  wordIndexToString 5 v = T "is" /\ stringToWordIndex (T "zzz") v = 1.
Proof. vm_compute. auto. Qed.

(** C21 *)
Theorem C21_save_load_roundtrip : forall ws l, Forall clean_word ws -> (N.of_nat (3 + length ws) <= INT_MAX + 1)%N ->
  let v := snd (strVectorToIndexVector ws clear_voc) in Permutation (s2i v) l ->
  exists v', loadVocab (print_entries l) = Some (LOk v') /\ vocabSize v' = vocabSize v /\
    (forall w, stringToWordIndex w v' = stringToWordIndex w v /\ existSymbol w v' = existSymbol w v) /\
    (forall i, wordIndexToString i v' = wordIndexToString i v).
Proof. exact reload_roundtrip. Qed.
Print Assumptions C21_save_load_roundtrip.

(** interleaving additions with any number of save/load cycles is the same as only adding *)
Theorem C21_reload_is_unobservable : forall ops v, Forall clean_word (added ops) -> (N.of_nat (3 + length (added ops)) <= INT_MAX + 1)%N ->
  vrun ops clear_voc v -> let names := names_after (added ops) in
  vocabSize v = length names /\
  (forall w, stringToWordIndex w v = match position w names with Some i => i | None => 1 end) /\
  (forall i, wordIndexToString i v = nth i names (T "UNKNOWN_WORD")).
Proof. exact history_observations. Qed.
Print Assumptions C21_reload_is_unobservable.

(** a file with a gap: the fourth word added afterwards takes the index of a word already there *)
Theorem C21_gapped_file_refuted : exists file v, loadVocab file = Some (LOk v) /\
  let v' := snd (strVectorToIndexVector [T "a"; T "b"; T "c"; T "d"] v) in
  existSymbol (T "foo") v' = true /\ existSymbol (T "d") v' = true /\ stringToWordIndex (T "foo") v' = stringToWordIndex (T "d") v'.
Proof. exists (T "7 foo" ++ [NL]). eexists. vm_compute. auto. Qed.
Print Assumptions C21_gapped_file_refuted.

Example C21_nonvacuous : clean_word (T "house") /\
  loadVocab (print_entries (s2i (snd (strVectorToIndexVector [T "the"; T "house"] clear_voc)))) =
    Some (LOk (snd (strVectorToIndexVector [T "the"; T "house"] clear_voc))).
Proof. split; [|vm_compute; reflexivity]. repeat split; [discriminate| | |]; vm_compute; intuition discriminate. Qed.

(** C22 *)
Theorem C22_tokenize_is_words : forall s, stringToStringVector s = Some (words blank s).
Proof. exact s2v_words. Qed.
Print Assumptions C22_tokenize_is_words.
Theorem C22_join_then_split : forall v, (forall w, In w v -> w <> [] /\ forallb (fun c => negb (blank c)) w = true) ->
  stringToStringVector (stringVectorToString v) = Some v.
Proof. exact join_split. Qed.
Print Assumptions C22_join_then_split.
Theorem C22_tokens_are_clean : forall s v, stringToStringVector s = Some v ->
  forall w, In w v -> w <> [] /\ forallb (fun c => negb (blank c)) w = true.
Proof. exact split_clean. Qed.
Print Assumptions C22_tokens_are_clean.
Theorem C22_split_C_string : forall s, charItemsToVector s = Some (words (fun c => Ascii.eqb c (ascii_of_nat 32)) s).
Proof. exact c2v_words. Qed.
Print Assumptions C22_split_C_string.
Example C22_nonvacuous : stringToStringVector (T "  a  bc d ") = Some [T "a"; T "bc"; T "d"] /\ stringToStringVector (T "a" ++ [ascii_of_nat 9] ++ T "b") = Some [T "a"; T "b"] /\
  stringVectorToString [T "a"; T "bc"; T "d"] = T "a bc d".
Proof. vm_compute. auto. Qed.

(** C23 *)
Theorem C23_number_of_fields : forall FS buf, get_NF FS buf = Some (length (words (fun c => Ascii.eqb c FS) buf)).
Proof. exact get_NF_words. Qed.
Print Assumptions C23_number_of_fields.
Theorem C23_field_access : forall FS buf k, dollar FS buf (S k) = Some (nth k (words (fun c => Ascii.eqb c FS) buf) []).
Proof. exact dollar_words. Qed.
Print Assumptions C23_field_access.
Theorem C23_whole_line : forall FS buf, dollar FS buf 0 = Some buf.
Proof. exact dollar_zero. Qed.
Print Assumptions C23_whole_line.
Example C23_nonvacuous : get_NF SP (T " 12 foo  bar ") = Some 3 /\ dollar SP (T " 12 foo  bar ") 3 = Some (T "bar") /\ dollar SP (T " 12 foo  bar ") 4 = Some [].
Proof. vm_compute. auto. Qed.

(** C24 *)
Theorem C24_terminated_lines : forall ls, Forall good_line ls -> read_lines (file_of ls) = Some ls.
Proof. exact read_lines_ok. Qed.
Print Assumptions C24_terminated_lines.
Theorem C24_unterminated_line_refuted : forall ls l c, Forall good_line ls -> good_line l -> c <> NL ->
  read_lines (file_of ls ++ l ++ [c]) = Some (ls ++ [l]).
Proof. exact read_lines_unterminated. Qed.
Print Assumptions C24_unterminated_line_refuted.
Example C24_nonvacuous : read_lines (file_of [T "ab"; []; T "c d"]) = Some [T "ab"; []; T "c d"] /\
  read_lines (file_of [T "ab"] ++ T "xyz") = Some [T "ab"; T "xy"].
Proof. vm_compute. auto. Qed.

(** C53: last word of a string *)
Theorem C53_last_word_after_a_blank : forall u w b, w <> [] -> Forall (fun x => x <> SP) w -> Forall (fun x => x = SP) b ->
  getLastWord (u ++ SP :: w ++ b) = w.
Proof. exact getLastWord_after_blank. Qed.
Print Assumptions C53_last_word_after_a_blank.
Theorem C53_single_word_refuted : forall c w b, Forall (fun x => x <> SP) (c :: w) -> Forall (fun x => x = SP) b -> getLastWord (c :: w ++ b) = w.
Proof. exact getLastWord_single. Qed.
Print Assumptions C53_single_word_refuted.
Example C53_nonvacuous : getLastWord (T "the house ") = T "house" /\ getLastWord (T "house ") = T "ouse".
Proof. vm_compute. auto. Qed.

(** C54: prefixes, as used to match a user-validated prefix *)
Theorem C54_string_prefix : forall s1 s2, isPrefix s1 s2 = true <-> exists r, s2 = s1 ++ r.
Proof. exact isPrefix_spec. Qed.
Print Assumptions C54_string_prefix.
Theorem C54_sentence_prefix : forall v1 v2, isPrefixStrVec v1 v2 = true <->
  v1 = [] \/ exists u l l' r p, v1 = u ++ [l] /\ v2 = u ++ [l'] ++ r /\ l' = l ++ p.
Proof. exact isPrefixStrVec_spec. Qed.
Print Assumptions C54_sentence_prefix.
Theorem C54_trailing_blank : forall s, (lastCharIsBlank s = true <-> exists u, s = u ++ [SP]) /\
  (forall u, removeLastBlank (u ++ [SP]) = u) /\ (~ (exists u, s = u ++ [SP]) -> removeLastBlank s = s) /\ removeLastBlank (addBlank s) = s.
Proof. exact blank_tail. Qed.
Print Assumptions C54_trailing_blank.
Example C54_nonvacuous : isPrefixStrVec [T "the"; T "hou"] [T "the"; T "house"; T "is"] = true /\
  isPrefixStrVec [T "th"; T "house"] [T "the"; T "house"; T "is"] = false.
Proof. vm_compute. auto. Qed.
