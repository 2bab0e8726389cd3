(** Phrase tables: StlPhraseTable.cc, HatTriePhraseTable.cc, LevelDbPhraseTable.cc (src/phrase_models).
    Counts (class Count, src/nlp_common/Count.h:36: a float) are integers here: float rounding is not modelled, and for
    integral values LevelDB's [(int) round(c)] and decimal text round trip are the identity (|c| < 2^31).
    [fabs(c) < EPSILON] on an integral count is [c = 0], and so is HatTrie's [(int) c == 0]. *)
From Coq Require Import ZArith NArith QArith List Bool.
From Verif Require Import AMap CodecModel LevelDbModel PtSpec.
Import ListNotations.
Open Scope Z_scope.

(** ** StlPhraseTable *)
(** std::map<std::vector<WordIndex>,Count> for sources and targets (StlPhraseTable.h:62-64), kept in the vector order
    ([db_put] inserts in lexicographic order); the joint map is keyed by a pair of iterators, i.e. by references to a
    source and a target entry (StlPhraseTable.h:71-95): here by the two phrases, the counts behind the iterators being
    looked up when dereferenced. *)
Definition pair_dec : forall a b : phrase * phrase, {a = b} + {a <> b}.
Proof. decide equality; apply phrase_dec. Defined.
Record stl := { srcPhraseInfo : db Z; trgPhraseInfo : db Z; srcTrgPhraseInfo : list ((phrase * phrase) * Z) }.
Definition stl_empty : stl := {| srcPhraseInfo := []; trgPhraseInfo := []; srcTrgPhraseInfo := [] |}.

(** addSrcInfo: StlPhraseTable.cc:167-180; addTrgInfo: :183-196 *)
Definition stl_addSrcInfo (s : phrase) (c : Z) (p : stl) : stl :=
  {| srcPhraseInfo := db_put s c (srcPhraseInfo p); trgPhraseInfo := trgPhraseInfo p; srcTrgPhraseInfo := srcTrgPhraseInfo p |}.
Definition stl_addTrgInfo (t : phrase) (c : Z) (p : stl) : stl :=
  {| srcPhraseInfo := srcPhraseInfo p; trgPhraseInfo := db_put t c (trgPhraseInfo p); srcTrgPhraseInfo := srcTrgPhraseInfo p |}.

(** getSrcTrgKey: StlPhraseTable.cc:37-55; adds a zero entry for a missing t; the returned key is usable iff the source
    iterator is not end(), i.e. iff [found] *)
Definition stl_getSrcTrgKey (s t : phrase) (p : stl) : bool * stl :=
  let p' := match db_get t (trgPhraseInfo p) with None => stl_addTrgInfo t 0 p | Some _ => p end in
  (match db_get s (srcPhraseInfo p) with None => false | Some _ => true end, p').

(** getSrcInfo: StlPhraseTable.cc:280-295; getTrgInfo: :298-313 ([None]: found=false, value 0) *)
Definition stl_getSrcInfo (s : phrase) (p : stl) : option Z := db_get s (srcPhraseInfo p).
Definition stl_getTrgInfo (t : phrase) (p : stl) : option Z := db_get t (trgPhraseInfo p).
(** getSrcTrgInfo: StlPhraseTable.cc:316-336 *)
Definition stl_getSrcTrgInfo (s t : phrase) (p : stl) : option Z * stl :=
  let (found, p') := stl_getSrcTrgKey s t p in
  if found then (aget pair_dec (s, t) (srcTrgPhraseInfo p'), p') else (None, p').
(** infSrcTrg: StlPhraseTable.cc:260-277 ([None] : found=false) *)
Definition stl_infSrcTrg (s t : phrase) (p : stl) : option (Z * Z) * stl :=
  match stl_getSrcInfo s p with
  | None => (None, p)
  | Some cs => let (r, p') := stl_getSrcTrgInfo s t p in
               (match r with None => None | Some c => Some (cs, c) end, p')
  end.
(** cSrcTrg: :454-459, cSrc: :462-466, cTrg: :469-473 *)
Definition stl_cSrcTrg (s t : phrase) (p : stl) : Z * stl :=
  let (r, p') := stl_getSrcTrgInfo s t p in (val r, p').
Definition stl_cSrc (s : phrase) (p : stl) : Z := val (stl_getSrcInfo s p).
Definition stl_cTrg (t : phrase) (p : stl) : Z := val (stl_getTrgInfo t p).

(** addSrcTrgInfo: StlPhraseTable.cc:199-241.  When s is missing the key built at :204 keeps the end() iterator and is
    then used as a map key: undefined behaviour, [None]. *)
Definition stl_addSrcTrgInfo (s t : phrase) (c : Z) (p : stl) : option stl :=
  let (found, p') := stl_getSrcTrgKey s t p in
  if found then Some {| srcPhraseInfo := srcPhraseInfo p'; trgPhraseInfo := trgPhraseInfo p';
                        srcTrgPhraseInfo := aset pair_dec (s, t) c (srcTrgPhraseInfo p') |}
  else None.
(** addTableEntry: StlPhraseTable.cc:154-164 *)
Definition stl_addTableEntry (s t : phrase) (cs cst : Z) (p : stl) : option stl :=
  let t_count := stl_cTrg t p in
  stl_addSrcTrgInfo s t cst (stl_addTrgInfo t (t_count + cst) (stl_addSrcInfo s cs p)).
(** incrCountsOfEntry: StlPhraseTable.cc:244-257 *)
Definition stl_incrCountsOfEntry (s t : phrase) (c : Z) (p : stl) : option stl :=
  let s_count := stl_cSrc s p in
  let t_count := stl_cTrg t p in
  let (st_count, p1) := stl_cSrcTrg s t p in
  stl_addSrcTrgInfo s t (st_count + c) (stl_addTrgInfo t (t_count + c) (stl_addSrcInfo s (s_count + c) p1)).
(** size: StlPhraseTable.cc:504-511 *)
Definition stl_size (p : stl) : nat := length (srcPhraseInfo p) + length (trgPhraseInfo p) + length (srcTrgPhraseInfo p).
(** pTrgGivenSrc: StlPhraseTable.cc:339-353; pSrcGivenTrg: :363-377; PHRASE_PROB_SMOOTH = 1e-10 (PhraseDefs.h:43).
    Exact division instead of float division. *)
Definition PHRASE_PROB_SMOOTH : Q := 1 # 10000000000.
Definition ratio (num den : Z) : Q := (inject_Z num / inject_Z den)%Q.
Definition stl_pTrgGivenSrc (s t : phrase) (p : stl) : Q * stl :=
  let (c, p') := stl_cSrcTrg s t p in
  (if 0 <? c then (if 0 <? stl_cSrc s p' then ratio c (stl_cSrc s p') else PHRASE_PROB_SMOOTH) else PHRASE_PROB_SMOOTH, p').
Definition stl_pSrcGivenTrg (s t : phrase) (p : stl) : Q * stl :=
  let (c, p') := stl_cSrcTrg s t p in
  (if 0 <? c then (if 0 <? stl_cTrg t p' then ratio c (stl_cTrg t p') else PHRASE_PROB_SMOOTH) else PHRASE_PROB_SMOOTH, p').

(** SrcTrgKeyComparator: StlPhraseTable.h:73-93 (target first, then source) *)
Definition key_ltb (a b : phrase * phrase) : bool :=
  if phrase_dec (snd a) (snd b) then bytes_ltb (fst a) (fst b) else bytes_ltb (snd a) (snd b).
(** getEntriesForTarget: StlPhraseTable.cc:387-419.  [None]: begin() of an empty map is dereferenced (:394).  The result
    lists what is inserted in the output map. *)
Definition stl_getEntriesForTarget (t : phrase) (p : stl) : option (bool * list (phrase * (Z * Z)) * stl) :=
  match srcPhraseInfo p with
  | [] => None
  | (s_first, _) :: _ =>
      let s_last := fst (last (srcPhraseInfo p) (s_first, 0)) in
      let (_, p') := stl_getSrcTrgKey s_first t p in
      let range := filter (fun e => negb (key_ltb (fst e) (s_first, t)) && negb (key_ltb (s_last, t) (fst e))) (srcTrgPhraseInfo p') in
      let res := flat_map (fun e => match db_get (fst (fst e)) (srcPhraseInfo p') with
                                    | Some cs => if (cs =? 0) || (snd e =? 0) then [] else [(fst (fst e), (cs, snd e))]
                                    | None => []     (* not reached: the key holds a valid iterator *)
                                    end) range in
      Some (negb (match res with [] => true | _ => false end), res, p')
  end.
(** getEntriesForSource: StlPhraseTable.cc:422-451 *)
Definition stl_getEntriesForSource (s : phrase) (p : stl) : bool * list (phrase * (Z * Z)) :=
  let res := flat_map (fun e => if phrase_dec (fst (fst e)) s then
                                  match db_get (snd (fst e)) (trgPhraseInfo p) with
                                  | Some ct => if (ct =? 0) || (snd e =? 0) then [] else [(snd (fst e), (ct, snd e))]
                                  | None => []     (* not reached: the key holds a valid iterator *)
                                  end
                                else []) (srcTrgPhraseInfo p) in
  (negb (match res with [] => true | _ => false end), res).

(** one call; a history of calls on a new table *)
Definition stl_step (p : stl) (o : pt_op) : option stl :=
  match o with
  | PAdd s t cs cst => stl_addTableEntry s t cs cst p
  | PIncr s t c => stl_incrCountsOfEntry s t c p
  | PAddSrc s c => Some (stl_addSrcInfo s c p)
  | PAddSrcTrg s t c => stl_addSrcTrgInfo s t c p
  | PClear => Some stl_empty
  | PQuery s t => Some (snd (stl_cSrcTrg s t p))
  end.
Fixpoint stl_run_from (p : stl) (h : list pt_op) : option stl :=
  match h with [] => Some p | o :: r => match stl_step p o with None => None | Some p' => stl_run_from p' r end end.
Definition stl_run (h : list pt_op) : option stl := stl_run_from stl_empty h.

(** ** HatTriePhraseTable: one map from byte strings (tsl::htrie_map) *)
Definition hat := list (list N * Z).
Definition bytes_dec : forall a b : list N, {a = b} + {a <> b} := list_eq_dec N.eq_dec.
(** addSrcInfo: HatTriePhraseTable.cc:226-231, addTrgInfo: :234-239, addSrcTrgInfo: :242-248.  Keys contain no zero byte
    (C01), so passing [c_str()] loses nothing. *)
Definition hat_addSrcInfo (s : phrase) (c : Z) (m : hat) : hat := aset bytes_dec (src_key s) c m.
Definition hat_addTrgInfo (t : phrase) (c : Z) (m : hat) : hat := aset bytes_dec (trg_key t) c m.
Definition hat_addSrcTrgInfo (s t : phrase) (c : Z) (m : hat) : hat := aset bytes_dec (trgsrc_key s t) c m.
(** getSrcInfo: :287-303, getTrgInfo: :306-322, getSrcTrgInfo: :325-343 *)
Definition hat_getSrcInfo (s : phrase) (m : hat) : option Z := aget bytes_dec (src_key s) m.
Definition hat_getTrgInfo (t : phrase) (m : hat) : option Z := aget bytes_dec (trg_key t) m.
Definition hat_getSrcTrgInfo (s t : phrase) (m : hat) : option Z := aget bytes_dec (trgsrc_key s t) m.
(** infSrcTrg: :267-284 *)
Definition hat_infSrcTrg (s t : phrase) (m : hat) : option (Z * Z) :=
  match hat_getSrcInfo s m with
  | None => None
  | Some cs => match hat_getSrcTrgInfo s t m with None => None | Some c => Some (cs, c) end
  end.
(** cSrcTrg: :458-463, cSrc: :466-470, cTrg: :473-477 *)
Definition hat_cSrcTrg (s t : phrase) (m : hat) : Z := val (hat_getSrcTrgInfo s t m).
Definition hat_cSrc (s : phrase) (m : hat) : Z := val (hat_getSrcInfo s m).
Definition hat_cTrg (t : phrase) (m : hat) : Z := val (hat_getTrgInfo t m).
(** addTableEntry: :213-223; incrCountsOfEntry: :251-264 *)
Definition hat_addTableEntry (s t : phrase) (cs cst : Z) (m : hat) : hat :=
  let t_count := hat_cTrg t m in hat_addSrcTrgInfo s t cst (hat_addTrgInfo t (t_count + cst) (hat_addSrcInfo s cs m)).
Definition hat_incrCountsOfEntry (s t : phrase) (c : Z) (m : hat) : hat :=
  let s_count := hat_cSrc s m in
  let t_count := hat_cTrg t m in
  let st_count := hat_cSrcTrg s t m in
  hat_addSrcTrgInfo s t (st_count + c) (hat_addTrgInfo t (t_count + c) (hat_addSrcInfo s (s_count + c) m)).
Fixpoint is_prefixb (p l : list N) : bool :=
  match p, l with [], _ => true | x :: p', y :: l' => (x =? y)%N && is_prefixb p' l' | _, [] => false end.
(** getEntriesForTarget: :394-420 (equal_prefix_range = the entries whose key has the prefix; [None]: a key does not
    decode or is shorter than the prefix, where C++ reads out of bounds) *)
Fixpoint collect (inf : phrase -> option (Z * Z)) (t : phrase) (es : list (list N * Z)) : option (list (phrase * (Z * Z))) :=
  match es with
  | [] => Some []
  | (k, _) :: r =>
      match pt_keyToVector k with
      | None => None
      | Some vec =>
          if (length vec <? length t + 1)%nat then None
          else let s := skipn (length t + 1) vec in
               match collect inf t r with
               | None => None
               | Some rest => Some (match inf s with
                                    | Some (cs, c) => if (cs =? 0) || (c =? 0) then rest else (s, (cs, c)) :: rest
                                    | None => rest
                                    end)
               end
      end
  end.
Definition hat_getEntriesForTarget (t : phrase) (m : hat) : option (bool * list (phrase * (Z * Z))) :=
  match collect (fun s => hat_infSrcTrg s t m) t (filter (fun e => is_prefixb (trgsrc_key [] t) (fst e)) m) with
  | None => None
  | Some res => Some (negb (match res with [] => true | _ => false end), res)
  end.
(** getEntriesForSource: :423-455 *)
Fixpoint hat_collect_src (s : phrase) (m : hat) (es : hat) : option (list (phrase * (Z * Z))) :=
  match es with
  | [] => Some []
  | (k, c) :: r =>
      match pt_keyToVector k with
      | None => None
      | Some vec =>
          match hat_collect_src s m r with
          | None => None
          | Some rest =>
              let n := length (getSrc s) in
              if (length vec <=? n)%nat then Some rest
              else if phrase_dec (skipn (length vec - n) vec) (getSrc s) then
                     let t := firstn (length vec - n) vec in
                     let ct := hat_cTrg t m in
                     Some (if (ct =? 0) || (c =? 0) then rest else (t, (ct, c)) :: rest)
                   else Some rest
          end
      end
  end.
Definition hat_getEntriesForSource (s : phrase) (m : hat) : option (bool * list (phrase * (Z * Z))) :=
  match hat_collect_src s m m with
  | None => None
  | Some res => Some (negb (match res with [] => true | _ => false end), res)
  end.
Definition hat_step (m : hat) (o : pt_op) : hat :=
  match o with
  | PAdd s t cs cst => hat_addTableEntry s t cs cst m
  | PIncr s t c => hat_incrCountsOfEntry s t c m
  | PAddSrc s c => hat_addSrcInfo s c m
  | PAddSrcTrg s t c => hat_addSrcTrgInfo s t c m
  | PClear => []
  | PQuery s t => m
  end.
Definition hat_run (h : list pt_op) : hat := fold_left hat_step h [].

(** ** LevelDbPhraseTable: an ordered byte-string database *)
Definition ldb := db Z.
(** retrieveData / storeData / getInfo: LevelDbPhraseTable.cc:88-119, :329-338; encodeSrc/encodeTrgSrc: :187-207 (the same
    vectors as HatTrie's getSrc/getTrgSrc) *)
Definition ldb_addSrcInfo (s : phrase) (c : Z) (m : ldb) : ldb := db_put (src_key s) c m.          (* :278-282 *)
Definition ldb_storeTrg (t : phrase) (c : Z) (m : ldb) : ldb := db_put (trg_key t) c m.            (* :273, :304 *)
Definition ldb_addSrcTrgInfo (s t : phrase) (c : Z) (m : ldb) : ldb := db_put (trgsrc_key s t) c m. (* :285-290 *)
Definition ldb_getSrcInfo (s : phrase) (m : ldb) : option Z := db_get (src_key s) m.                (* :341-345 *)
Definition ldb_getTrgInfo (t : phrase) (m : ldb) : option Z := db_get (trg_key t) m.                (* :348-353 *)
Definition ldb_getSrcTrgInfo (s t : phrase) (m : ldb) : option Z := db_get (trgsrc_key s t) m.      (* :356-362 *)
Definition ldb_infSrcTrg (s t : phrase) (m : ldb) : option (Z * Z) :=                               (* :309-326 *)
  match ldb_getSrcInfo s m with
  | None => None
  | Some cs => match ldb_getSrcTrgInfo s t m with None => None | Some c => Some (cs, c) end
  end.
Definition ldb_cSrcTrg (s t : phrase) (m : ldb) : Z := val (ldb_getSrcTrgInfo s t m).               (* :464-469 *)
Definition ldb_cSrc (s : phrase) (m : ldb) : Z := val (ldb_getSrcInfo s m).                         (* :472-476 *)
Definition ldb_cTrg (t : phrase) (m : ldb) : Z := val (ldb_getTrgInfo t m).                         (* :479-483 *)
(** addTableEntry: :268-275: the target count is stored, not accumulated *)
Definition ldb_addTableEntry (s t : phrase) (cs cst : Z) (m : ldb) : ldb :=
  ldb_addSrcTrgInfo s t cst (ldb_storeTrg t cst (ldb_addSrcInfo s cs m)).
(** incrCountsOfEntry: :293-306 *)
Definition ldb_incrCountsOfEntry (s t : phrase) (c : Z) (m : ldb) : ldb :=
  let s_count := ldb_cSrc s m in
  let t_count := ldb_cTrg t m in
  let st_count := ldb_cSrcTrg s t m in
  ldb_addSrcTrgInfo s t (st_count + c) (ldb_storeTrg t (t_count + c) (ldb_addSrcInfo s (s_count + c) m)).
(** getEntriesForTarget: :414-452; the range end is the vector (t,3); the result flag is [i > 0], i counting visited
    keys, not inserted entries (loop body :437-444 as in the HatTrie table) *)
Definition ldb_getEntriesForTarget (t : phrase) (m : ldb) : option (bool * list (phrase * (Z * Z))) :=
  let es := db_range (pt_vectorToKey (t ++ [UNUSED_WORD])) (pt_vectorToKey (t ++ [3%N])) m in
  match collect (fun s => ldb_infSrcTrg s t m) t es with
  | None => None
  | Some res => Some (negb (match es with [] => true | _ => false end), res)
  end.
Definition ldb_step (m : ldb) (o : pt_op) : ldb :=
  match o with
  | PAdd s t cs cst => ldb_addTableEntry s t cs cst m
  | PIncr s t c => ldb_incrCountsOfEntry s t c m
  | PAddSrc s c => ldb_addSrcInfo s c m
  | PAddSrcTrg s t c => ldb_addSrcTrgInfo s t c m
  | PClear => []
  | PQuery s t => m
  end.
Definition ldb_run (h : list pt_op) : ldb := fold_left ldb_step h [].
