(** Byte-string keys of the LevelDB / HatTrie tables.
    Word indices and bytes are [N]; a std::string is the list of its bytes (0..255).
    Simplification: [pow(254,j)] is computed exactly (the C++ double power is exact for j<=4). *)
From Coq Require Import NArith List Bool.
Import ListNotations.
Open Scope N_scope.

(** 2^32: modulus of [unsigned int] arithmetic (WordIndex is unsigned int). *)
Definition two32 : N := 4294967296.

(** WORD_INDEX_MODULO_BASE: src/phrase_models/HatTriePhraseTable.h:28, LevelDbPhraseTable.h:27,
    src/incr_models/LevelDbNgramTable.h:29, src/sw_models/IncrLexLevelDbTable.h:30 *)
Definition base : N := 254.

(** WORD_INDEX_MODULO_BYTES: 3 in HatTriePhraseTable.h:31, LevelDbPhraseTable.h:28, LevelDbNgramTable.h:30;
    5 in IncrLexLevelDbTable.h:31 *)
Definition pt_bytes : nat := 3.
Definition lex_bytes : nat := 5.

(** Inner loop [for(j=BYTES-1;j>=0;j--) push_back(1 + (w / pow(BASE,j) % BASE))] and the conversion to char:
    HatTriePhraseTable.cc:41-44, LevelDbPhraseTable.cc:46-49, LevelDbNgramTable.cc:57-61, IncrLexLevelDbTable.cc:104-107 *)
Fixpoint enc_word (k : nat) (w : N) : list N :=
  match k with
  | O => []
  | S j => (1 + (w / base ^ N.of_nat j) mod base) mod 256 :: enc_word j w
  end.

(** vectorToStdString / vectorToString: HatTriePhraseTable.cc:37-50, LevelDbPhraseTable.cc:42-55,
    IncrLexLevelDbTable.cc:100-113 (k = number of digits per word) *)
Definition enc_vec (k : nat) (v : list N) : list N := flat_map (enc_word k) v.

(** One group of [k] digits, accumulated in an [unsigned int]: HatTriePhraseTable.cc:59-62 (and the copies cited
    above).  Returns the value and the unread bytes; [None] when the string ends inside a group, where the C++ code
    reads past the end of the string. *)
Fixpoint dec_word (k : nat) (s : list N) (acc : N) : option (N * list N) :=
  match k with
  | O => Some (acc, s)
  | S j => match s with
           | [] => None
           | b :: s' => dec_word j s' ((acc + (b + two32 - 1) * base ^ N.of_nat j) mod two32)
           end
  end.

(** Outer loop of stringToVector: HatTriePhraseTable.cc:53-68, LevelDbPhraseTable.cc:58-73,
    IncrLexLevelDbTable.cc:116-131.  [fuel] bounds the number of groups (the string length suffices). *)
Fixpoint dec_vec_fuel (fuel k : nat) (s : list N) : option (list N) :=
  match s with
  | [] => Some []
  | _ => match fuel with
         | O => None
         | S f => match dec_word k s 0 with
                  | None => None
                  | Some (w, s') => match dec_vec_fuel f k s' with
                                    | None => None
                                    | Some ws => Some (w :: ws)
                                    end
                  end
         end
  end.
Definition dec_vec (k : nat) (s : list N) : option (list N) := dec_vec_fuel (length s) k s.

(** vectorToKey / keyToVector of the phrase tables: HatTriePhraseTable.cc:71-80, LevelDbPhraseTable.cc:76-85 *)
Definition pt_vectorToKey (v : list N) : list N := enc_vec pt_bytes v.
Definition pt_keyToVector (s : list N) : option (list N) := dec_vec pt_bytes s.

(** UNUSED_WORD: src/nlp_common/StatModelDefs.h:72 *)
Definition UNUSED_WORD : N := 2.

(** getSrc: HatTriePhraseTable.cc:83-91 *)
Definition getSrc (s : list N) : list N := UNUSED_WORD :: s.
(** getTrgSrc: HatTriePhraseTable.cc:106-115 *)
Definition getTrgSrc (s t : list N) : list N := t ++ [UNUSED_WORD] ++ s.

(** The keys under which the three kinds of counts are stored: HatTriePhraseTable.cc:229 (source),
    :237 (target), :246 (joint); the LevelDB table builds the same vectors (LevelDbPhraseTable.cc, storeData). *)
Definition src_key (s : list N) : list N := pt_vectorToKey (getSrc s).
Definition trg_key (t : list N) : list N := pt_vectorToKey t.
Definition trgsrc_key (s t : list N) : list N := pt_vectorToKey (getTrgSrc s t).

(** LevelDbNgramTable::vectorToString: LevelDbNgramTable.cc:51-67 (leading byte = size+1, truncated to a char) *)
Definition ng_vectorToKey (v : list N) : list N := (N.of_nat (length v) + 1) mod 256 :: enc_vec pt_bytes v.
(** LevelDbNgramTable::stringToVector: LevelDbNgramTable.cc:70-88 (skips the first byte) *)
Definition ng_keyToVector (s : list N) : option (list N) :=
  match s with [] => Some [] | _ :: s' => dec_vec pt_bytes s' end.
(** dbNullKey: LevelDbNgramTable.cc:41-48 *)
Definition ng_dbNullKey : list N := repeat base pt_bytes.

(** IncrLexLevelDbTable::vectorToKey / keyToVector: IncrLexLevelDbTable.cc:134-143 *)
Definition lex_vectorToKey (v : list N) : list N := enc_vec lex_bytes v.
Definition lex_keyToVector (s : list N) : option (list N) := dec_vec lex_bytes s.

(** floatToString / stringToFloat: IncrLexLevelDbTable.cc:146-175; a float is its 32-bit pattern. *)
Definition floatToString (bits : N) : list N := enc_word lex_bytes bits.
Definition stringToFloat (s : list N) : option N :=
  match dec_word lex_bytes s 0 with None => None | Some (w, _) => Some w end.
