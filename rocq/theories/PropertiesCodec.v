(** C01-C05: key encodings and range scans of the LevelDB/HatTrie tables. *)
From Coq Require Import NArith List Bool Lia.
From Verif Require Import CodecModel CodecSpec CodecProofs LexSpec LevelDbModel LevelDbProofs.
Import ListNotations.
Open Scope N_scope.

(** C01 *)
Theorem C01_phrase_key_roundtrip : forall v, words_below (254 ^ 3) v -> pt_keyToVector (pt_vectorToKey v) = Some v.
Proof. exact pt_roundtrip. Qed.
Print Assumptions C01_phrase_key_roundtrip.
Theorem C01_phrase_key_bytes_nonzero : forall v, Forall (fun b => 1 <= b <= 254) (pt_vectorToKey v).
Proof. exact pt_key_bytes. Qed.
Print Assumptions C01_phrase_key_bytes_nonzero.
(** without the bound the encoding is not injective: every word collides with the word 254^3 above it *)
Theorem C01_unbounded_words_refuted : forall w, w < 254 ^ 3 -> pt_vectorToKey [w] = pt_vectorToKey [w + 254 ^ 3].
Proof. exact pt_wrap_refuted. Qed.
Print Assumptions C01_unbounded_words_refuted.
Example C01_nonvacuous : words_below (254 ^ 3) [16387063; 0; 254; 64516] /\
  pt_vectorToKey [16387063; 254] = [254; 254; 254; 1; 2; 1].
Proof. split; [repeat constructor|reflexivity]. Qed.

(** C02 *)
Theorem C02_same_kind_distinct : forall s t s' t',
  words_below (254^3) s -> words_below (254^3) t -> words_below (254^3) s' -> words_below (254^3) t' ->
  avoids UNUSED_WORD t -> avoids UNUSED_WORD t' ->
  (src_key s = src_key s' -> s = s') /\ (trg_key t = trg_key t' -> t = t') /\
  (trgsrc_key s t = trgsrc_key s' t' -> s = s' /\ t = t').
Proof.
  exact (fun s t s' t' Hs Ht Hs' Ht' A A' =>
           conj (src_key_inj s s' Hs Hs') (conj (pt_key_inj t t' Ht Ht') (trgsrc_key_inj s t s' t' Hs Ht Hs' Ht' A A'))).
Qed.
Print Assumptions C02_same_kind_distinct.
Theorem C02_kinds_disjoint : forall s t s' t',
  words_below (254^3) s -> words_below (254^3) t -> words_below (254^3) s' -> words_below (254^3) t' ->
  avoids UNUSED_WORD t -> avoids UNUSED_WORD t' -> t <> [] ->
  src_key s' <> trg_key t' /\ trgsrc_key s t <> trg_key t' /\ src_key s' <> trgsrc_key s t.
Proof.
  exact (fun s t s' t' Hs Ht Hs' Ht' A A' NE =>
           conj (src_trg_disjoint s' t' Hs' Ht' A') (conj (trg_trgsrc_disjoint s t t' Hs Ht Ht' A') (src_trgsrc_disjoint s' s t Hs Ht Hs' A NE))).
Qed.
Print Assumptions C02_kinds_disjoint.
(** with an empty target phrase the joint record aliases the source record *)
Theorem C02_empty_target_refuted : forall s, trgsrc_key s [] = src_key s.
Proof. exact (fun s => eq_refl). Qed.
Print Assumptions C02_empty_target_refuted.
Example C02_nonvacuous : words_below (254^3) [5;300000] /\ avoids UNUSED_WORD [5;300000] /\ trgsrc_key [3] [5] = [1;1;6;1;1;3;1;1;4].
Proof. split; [repeat constructor|split; [intros [H|[H|[]]]; discriminate|reflexivity]]. Qed.

(** C03 *)
Theorem C03_ngram_key_roundtrip : forall v, words_below (254^3) v -> ng_keyToVector (ng_vectorToKey v) = Some v.
Proof. exact ng_roundtrip. Qed.
Print Assumptions C03_ngram_key_roundtrip.
Theorem C03_ngram_key_injective : forall v v', words_below (254^3) v -> words_below (254^3) v' ->
  ng_vectorToKey v = ng_vectorToKey v' -> v = v'.
Proof. exact ng_inj. Qed.
Print Assumptions C03_ngram_key_injective.
Theorem C03_null_key_fresh : forall v, ng_vectorToKey v <> ng_dbNullKey.
Proof. exact ng_null_fresh. Qed.
Print Assumptions C03_null_key_fresh.
Theorem C03_ngram_key_order : forall v v', words_below (254^3) v -> words_below (254^3) v' -> length v = length v' ->
  (lexlt (ng_vectorToKey v) (ng_vectorToKey v') <-> lexlt v v').
Proof. exact ng_order. Qed.
Print Assumptions C03_ngram_key_order.
Theorem C03_shorter_ngrams_first : forall v v', (length v < length v')%nat -> (length v' <= 254)%nat ->
  lexlt (ng_vectorToKey v) (ng_vectorToKey v').
Proof. exact ng_shorter_first. Qed.
Print Assumptions C03_shorter_ngrams_first.
Example C03_nonvacuous : ng_vectorToKey [253; 254] = [3; 1;1;254; 1;2;1] /\ lexlt [253; 9] [254; 0].
Proof. split; [reflexivity|apply lexlt_head; reflexivity]. Qed.

(** C04 *)
Theorem C04_lex_key_roundtrip : forall v, words_below (2^32) v -> lex_keyToVector (lex_vectorToKey v) = Some v.
Proof. exact lex_roundtrip. Qed.
Print Assumptions C04_lex_key_roundtrip.
Theorem C04_lex_key_order : forall v v', words_below (2^32) v -> words_below (2^32) v' ->
  (lexlt (lex_vectorToKey v) (lex_vectorToKey v') <-> lexlt v v').
Proof. exact lex_order. Qed.
Print Assumptions C04_lex_key_order.
Theorem C04_float_roundtrip : forall bits, bits < 2^32 -> stringToFloat (floatToString bits) = Some bits.
Proof. exact float_roundtrip. Qed.
Print Assumptions C04_float_roundtrip.
Example C04_nonvacuous : words_below (2^32) [4294967295; 0] /\ lex_keyToVector (lex_vectorToKey [4294967295; 0]) = Some [4294967295; 0].
Proof. split; [repeat constructor|reflexivity]. Qed.

(** C05 (and the LevelDB half of C29): after any history of setter calls *)
Theorem C05_range_scan_exact : forall ops s t, Forall op_ok ops -> s < 2^32 -> t < 2^32 - 1 ->
  (In s (snd (lexdb_getTransForTarget t (lexdb_run ops))) <-> last_num s t ops <> None).
Proof. exact run_trans. Qed.
Print Assumptions C05_range_scan_exact.
Theorem C05_found_flag : forall ops t,
  fst (lexdb_getTransForTarget t (lexdb_run ops)) = true <-> exists s, In s (snd (lexdb_getTransForTarget t (lexdb_run ops))).
Proof. exact trans_found. Qed.
Print Assumptions C05_found_flag.
Theorem C05_last_word_lost_refuted : forall ops, Forall op_ok ops ->
  lexdb_getTransForTarget (2^32 - 1) (lexdb_run ops) = (false, []).
Proof. exact trans_wrap. Qed.
Print Assumptions C05_last_word_lost_refuted.
Theorem C29_leveldb_numer : forall ops s t, Forall op_ok ops -> s < 2^32 -> t < 2^32 ->
  lexdb_getLexNumer s t (lexdb_run ops) = last_num s t ops.
Proof. exact run_num. Qed.
Print Assumptions C29_leveldb_numer.
Theorem C29_leveldb_denom : forall ops s, Forall op_ok ops -> s < 2^32 ->
  lexdb_getLexDenom s (lexdb_run ops) = last_den s ops.
Proof. exact run_den. Qed.
Print Assumptions C29_leveldb_denom.
(** setLexNumDen stores both values *)
Theorem C29_leveldb_set_both : forall ops s t num den, Forall op_ok ops -> op_ok (OpNum s t num) -> op_ok (OpDen s den) ->
  let d := lexdb_setLexNumDen s t num den (lexdb_run ops) in
  lexdb_getLexNumer s t d = Some num /\ lexdb_getLexDenom s d = Some den /\ d = lexdb_run (ops ++ [OpDen s den; OpNum s t num]).
Proof.
  intros ops s t num den F O1 O2 d. assert (E : d = lexdb_run (ops ++ [OpDen s den; OpNum s t num])) by (unfold d, lexdb_run; now rewrite fold_left_app).
  assert (F' : Forall op_ok (ops ++ [OpDen s den; OpNum s t num])) by (apply Forall_app; split; [exact F|apply Forall_cons; [exact O2|apply Forall_cons; [exact O1|apply Forall_nil]]]).
  rewrite E. split; [|split; [|reflexivity]].
  - rewrite C29_leveldb_numer by (auto; apply O1). clear. induction ops as [|o ops IH]; cbn [app last_num]; [rewrite !N.eqb_refl; reflexivity|now rewrite IH].
  - rewrite C29_leveldb_denom by (auto; apply O2). clear. induction ops as [|o ops IH]; cbn [app last_den]; [rewrite !N.eqb_refl; reflexivity|now rewrite IH].
Qed.
Print Assumptions C29_leveldb_set_both.
Example C05_nonvacuous :
  let ops := [OpNum 7 3 1065353216; OpDen 3 5; OpNum 4294967295 3 2; OpNum 1 4 9; OpNum 7 3 8] in
  Forall op_ok ops /\ lexdb_getTransForTarget 3 (lexdb_run ops) = (true, [7; 4294967295]) /\
  lexdb_getLexNumer 7 3 (lexdb_run ops) = Some 8.
Proof. split; [repeat constructor|split; reflexivity]. Qed.
