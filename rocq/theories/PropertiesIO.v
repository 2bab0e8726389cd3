(** In-memory lexical table (C29, C30), sentence handler (C31), socket messages (C32). *)
From Coq Require Import Ascii String NArith ZArith Arith List Bool.
From Verif Require Import LexSpec LexTabModel LexTabProofs TextSpec TextModel TextProofs SentSpec SentModel SentProofs SockSpec SockModel.
From Verif Require SockProofs.
Import ListNotations.
Open Scope nat_scope.

(** C29: after any history of setter calls the getters return the last value set for exactly that key, with found=true, and
    (0, found=false) for keys never set. *)
Theorem C29_memory_numer : forall ops s t,
  getLexNumer (lex_run ops) s t = match last_num s t ops with Some f => (f, true) | None => (0%N, false) end.
Proof. exact mem_numer. Qed.
Print Assumptions C29_memory_numer.
Theorem C29_memory_denom : forall ops s,
  getLexDenom (lex_run ops) s = match last_den s ops with Some f => (f, true) | None => (0%N, false) end.
Proof. exact mem_denom. Qed.
Print Assumptions C29_memory_denom.
(** the translations reported for a target word are exactly the source words with a numerator, without repetition *)
Theorem C29_memory_translations : forall ops t,
  NoDup (fst (getTransForTarget (lex_run ops) t)) /\
  forall s, In s (fst (getTransForTarget (lex_run ops) t)) <-> last_num s t ops <> None.
Proof. exact mem_trans. Qed.
Print Assumptions C29_memory_translations.
(** finding: the boolean result only says that SOME target word >= t has a numerator, unlike the LevelDB table (C05_found_flag) *)
Theorem C29_memory_found_flag_refuted : forall ops t,
  snd (getTransForTarget (lex_run ops) t) = true <-> exists s t', (t <= t')%N /\ last_num s t' ops <> None.
Proof. exact mem_flag. Qed.
Print Assumptions C29_memory_found_flag_refuted.
Example C29_nonvacuous :
  let T := lex_run [OpNum 3 2 17; OpDen 1 5; OpNum 3 2 18; OpNum 0 4 9]%N in
  getLexNumer T 3%N 2%N = (18%N, true) /\ getLexNumer T 2%N 3%N = (0%N, false) /\ getLexDenom T 1%N = (5%N, true) /\ getLexDenom T 0%N = (0%N, false) /\
  getTransForTarget T 2%N = ([3%N], true) /\ getTransForTarget T 3%N = ([], true) /\ getTransForTarget T 5%N = ([], false).
Proof. vm_compute. intuition. Qed.

(** C30: printing to the binary format and loading the file back.  [small_op]: target indices below 2^32-1 (with 2^32 rows
    the printing loop does not terminate). *)
Theorem C30_binary_round_trip : forall ops, Forall op_ok ops -> Forall small_op ops ->
  exists bytes T', printBin (lex_run ops) = Some bytes /\ loadBin bytes = Some T' /\
    (* every numerator, and the found flag, are restored *)
    (forall s t, getLexNumer T' s t = getLexNumer (lex_run ops) s t) /\
    (* denominators of source words with some numerator are restored (0 is stored for a missing one, now with found=true) *)
    (forall s, (exists t, last_num s t ops <> None) -> getLexDenom T' s = (fst (getLexDenom (lex_run ops) s), true)) /\
    (* other denominators are lost *)
    (forall s, (forall t, last_num s t ops = None) -> getLexDenom T' s = (0%N, false)) /\
    (forall t, snd (getTransForTarget T' t) = snd (getTransForTarget (lex_run ops) t) /\
               forall s, In s (fst (getTransForTarget T' t)) <-> In s (fst (getTransForTarget (lex_run ops) t))).
Proof. exact roundtrip. Qed.
Print Assumptions C30_binary_round_trip.
Example C30_nonvacuous :
  let ops := [OpNum 3 2 1065353216; OpDen 1 5; OpDen 3 4294967295; OpNum 0 4 9]%N in
  Forall op_ok ops /\ Forall small_op ops /\
  exists bytes T', printBin (lex_run ops) = Some bytes /\ length bytes = 32 /\ loadBin bytes = Some T' /\ getLexNumer T' 3%N 2%N = (1065353216%N, true) /\
    getLexDenom T' 3%N = (4294967295%N, true) /\ getLexDenom (lex_run ops) 1%N = (5%N, true) /\ getLexDenom T' 1%N = (0%N, false) /\
    getLexDenom (lex_run ops) 0%N = (0%N, false) /\ getLexDenom T' 0%N = (0%N, true).
Proof.
  cbv zeta. split; [repeat constructor|]. split; [repeat constructor|]. eexists; eexists. split; [reflexivity|].
  split; [reflexivity|]. split; [reflexivity|]. vm_compute. intuition.
Qed.

(** C31: after reading files of newline-terminated lines (target and, if any, count file at least as long as the source file), any
    session of requests behaves as a list initialised with the corpus -- whatever the handler held before reading. *)
Theorem C31_session_without_counts : forall ls lt h ops, Forall good_line ls -> Forall good_line lt -> length ls <= length lt ->
  exists h', readSentencePairs (file_of ls) (file_of lt) None h = Some (true, (0%Z, Some ((Z.of_nat (length ls) - 1) mod 2^32)%Z), h') /\
             sh_run ops h' = Some (sh_spec ops (corpus_of ls lt)).
Proof. exact handler_none. Qed.
Print Assumptions C31_session_without_counts.
Theorem C31_session_with_counts : forall ls lt lc h ops, Forall good_line ls -> Forall good_line lt -> Forall good_line lc ->
  length ls <= length lt -> length ls <= length lc ->
  exists h', readSentencePairs (file_of ls) (file_of lt) (Some (file_of lc)) h = Some (true, (0%Z, Some ((Z.of_nat (length ls) - 1) mod 2^32)%Z), h') /\
             sh_run ops h' = Some (sh_spec ops (corpus_counts ls lt lc)).
Proof. exact handler_counts. Qed.
Print Assumptions C31_session_with_counts.
Theorem C31_short_target_rejected : forall ls lt fc h, Forall good_line ls -> Forall good_line lt -> length lt < length ls ->
  exists h', readSentencePairs (file_of ls) (file_of lt) fc h = Some (false, (0%Z, None), h').
Proof. exact read_short. Qed.
Print Assumptions C31_short_target_rejected.
(** finding: with a count file shorter than the corpus reading succeeds, but asking for pair 2 and then for pair 1 answers
    with pair 1 first and pair 2 next. *)
Theorem C31_short_count_file_refuted :
  let src := file_of [T "a"; T "b"; T "c"] in let trg := file_of [T "x"; T "y"; T "z"] in let cnt := file_of [T "1"] in
  exists h', readSentencePairs src trg (Some cnt) handler0 = Some (true, (0%Z, Some 2%Z), h') /\
    sh_run [Get 2; Get 1] h' = Some [OutPair (Some ([T "b"], [T "y"], Atof (T "1"))); OutPair (Some ([T "c"], [T "z"], Atof (T "1")))].
Proof. cbv zeta. eexists. split; [vm_compute; reflexivity|vm_compute; reflexivity]. Qed.
Print Assumptions C31_short_count_file_refuted.
Example C31_nonvacuous :
  Forall good_line [T "the  house"; []; T "is big"] /\
  sh_spec [Get 2; Add [T "u"] [T "v"] (Lit 7); Get 0; Get 3; Get 4; Num] (corpus_counts [T "the  house"; []; T "is big"] [T "la casa"; T "x"; T "es"] [T "1"; T "2"; T "0.5 z"]) =
    [OutPair (Some ([T "is"; T "big"], [T "es"], Atof (T "0.5"))); OutRange 3 3; OutPair (Some ([T "the"; T "house"], [T "la"; T "casa"], Atof (T "1")));
     OutPair (Some ([T "u"], [T "v"], Lit 7)); OutPair None; OutNum 4].
Proof. split; [repeat constructor; vm_compute; intuition discriminate|reflexivity]. Qed.

(** C32: a sequence of messages written completely is read back, followed by whatever else is on the wire, when each recv finds
    all the bytes it asks for. *)
Theorem C32_round_trip : forall ms rest, Forall msg_ok ms ->
  exists wire, send_all ms = Some wire /\ receive_all ms (wire ++ rest) = Some (ms, rest).
Proof. exact SockProofs.roundtrip. Qed.
Print Assumptions C32_round_trip.
(** finding: if only m of the bytes of a string have arrived, the reader returns those m bytes as the string and the other
    bytes stay on the wire, where the next read takes them for its own message *)
Theorem C32_fragmentation_refuted : forall s d1 m rest, Forall (fun b => 0 < b < 256)%N s -> (Z.of_nat (length s) < 2^31)%Z -> 4 <= d1 -> m < length s ->
  recvStlStr d1 m (be32 (Z.of_nat (length s)) ++ s ++ rest) = Some (m, firstn m s, skipn m s ++ rest).
Proof. exact SockProofs.fragmented. Qed.
Print Assumptions C32_fragmentation_refuted.
(** strings are cut at the first zero byte by the sender *)
Theorem C32_cut_at_zero_byte : forall a b, Forall (fun x => 0 < x < 256)%N a -> send (MStr (a ++ 0%N :: b)) = send (MStr a).
Proof. exact SockProofs.truncated_at_zero. Qed.
Print Assumptions C32_cut_at_zero_byte.
(** finding: a failing write (-1) of a non-empty string is not noticed: writeStr returns 3 instead of throwing *)
Theorem C32_write_failure_unnoticed_refuted : forall s, cbytes s <> [] ->
  writeStr s 4 (-1) = Some (be32 (Z.of_nat (length (cbytes s))), 3%Z).
Proof. exact SockProofs.failure_unnoticed. Qed.
Print Assumptions C32_write_failure_unnoticed_refuted.
Example C32_nonvacuous :
  send_all [MInt (-3); MStr [104; 111; 108; 97]%N; MStr []; MInt 5] =
    Some [255;255;255;253; 0;0;0;4;104;111;108;97; 0;0;0;0; 0;0;0;5]%N /\ Forall msg_ok [MInt (-3); MStr [104; 111; 108; 97]%N; MStr []; MInt 5] /\
  recvStlStr 4 2 [0;0;0;4;104;111;108;97; 0;0;0;5]%N = Some (2, [104;111]%N, [108;97;0;0;0;5]%N) /\
  recvInt 6 [108;97;0;0;0;5]%N = Some (1818296320%Z, [0;5]%N).
Proof.
  split; [reflexivity|]. split; [|split; reflexivity].
  repeat constructor; vm_compute; try reflexivity; discriminate.
Qed.
