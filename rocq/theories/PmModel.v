(** Phrase model (src/phrase_models/_incrPhraseModel.cc, _wbaIncrPhraseModel.cc, WbaIncrPhraseModel.cc, CategPhrasePairFilter.cc) with the
    default table of a C++11 build, HatTriePhraseTable (WbaIncrPhraseModel.h:69-73).  Counts are integers (see PtModel): a fractional
    count makes the result [None], and so does a count 0/0.  Segmentation-length tables and the BRF estimation are not modelled. *)
From Coq Require Import Ascii String Arith ZArith NArith QArith Reals List Bool.
From Verif Require Import TextSpec TextModel AMap VocabSpec VocabModel AligSpec ExtrSpec ExtrModel CodecModel PtSpec PtModel PmSpec.
Import ListNotations.
Open Scope Z_scope.

Record pm := mkpm { p_sv : voc; p_tv : voc; p_tab : hat }.
(** clear: _incrPhraseModel.cc (vocabularies and table), _wbaIncrPhraseModel.cc:235-239 *)
Definition pm_clear : pm := mkpm clear_voc clear_voc [].
(** strVectorToSrcIndexVector / strVectorToTrgIndexVector: _incrPhraseModel.cc, via SingleWordVocab (VocabModel) *)
Definition toIndices (ws : sphrase) (v : voc) : phrase * voc :=
  let (is, v') := strVectorToIndexVector ws v in (map N.of_nat is, v').
(** strAddTableEntry: _incrPhraseModel.cc:39-49, addTableEntry :51-57 *)
Definition strAddTableEntry (s t : sphrase) (cs cst : Z) (m : pm) : pm :=
  let (is, sv) := toIndices s (p_sv m) in
  let (it, tv) := toIndices t (p_tv m) in
  mkpm sv tv (hat_addTableEntry is it cs cst (p_tab m)).
(** strIncrCountsOfEntry: _incrPhraseModel.cc:60-70, incrCountsOfEntry :73-79 *)
Definition strIncrCountsOfEntry (s t : sphrase) (c : Z) (m : pm) : pm :=
  let (is, sv) := toIndices s (p_sv m) in
  let (it, tv) := toIndices t (p_tv m) in
  mkpm sv tv (hat_incrCountsOfEntry is it c (p_tab m)).
(** the lookup loops of cHSrcHTrg: _incrPhraseModel.cc:110-122 ([None]: unknown word, count 0) *)
Fixpoint known_indices (ws : sphrase) (v : voc) : option phrase :=
  match ws with
  | [] => Some []
  | w :: r => if negb (existSymbol w v) then None
              else match known_indices r v with None => None | Some is => Some (N.of_nat (stringToWordIndex w v) :: is) end
  end.
(** cHSrcHTrg: :103-125; cHSrc: :128-139; cHTrg: :142-153 *)
Definition cHSrcHTrg (hs ht : sphrase) (m : pm) : Z :=
  match known_indices hs (p_sv m) with
  | None => 0
  | Some s => match known_indices ht (p_tv m) with None => 0 | Some t => hat_cSrcTrg s t (p_tab m) end
  end.
Definition cHSrc (hs : sphrase) (m : pm) : Z := match known_indices hs (p_sv m) with None => 0 | Some s => hat_cSrc s (p_tab m) end.
Definition cHTrg (ht : sphrase) (m : pm) : Z := match known_indices ht (p_tv m) with None => 0 | Some t => hat_cTrg t (p_tab m) end.

(** one call with words *)
Definition pm_step (m : pm) (o : sop) : pm :=
  match o with SIncr s t c => strIncrCountsOfEntry s t c m | SAdd s t cs cst => strAddTableEntry s t cs cst m end.
Definition pm_run (h : list sop) (m : pm) : pm := fold_left pm_step h m.

(** pTrgGivenSrc: HatTriePhraseTable.cc:346-361; pSrcGivenTrg: :370-385 *)
Definition hat_pTrgGivenSrc (s t : phrase) (m : hat) : Q :=
  let c := hat_cSrcTrg s t m in
  if 0 <? c then (if 0 <? hat_cSrc s m then ratio c (hat_cSrc s m) else PHRASE_PROB_SMOOTH) else PHRASE_PROB_SMOOTH.
Definition hat_pSrcGivenTrg (s t : phrase) (m : hat) : Q :=
  let c := hat_cSrcTrg s t m in
  if 0 <? c then (if 0 <? hat_cTrg t m then ratio c (hat_cTrg t m) else PHRASE_PROB_SMOOTH) else PHRASE_PROB_SMOOTH.
(** logpTrgGivenSrc: :364-367, logpSrcGivenTrg: :388-391 (log of the above); logpt_s_ / logps_t_: _incrPhraseModel.cc:197-218.
    Exact real logarithm instead of double. *)
Definition LOG_PHRASE_PROB_SMOOTH : R := ln (Q2R PHRASE_PROB_SMOOTH).
Definition floor_lp (lp : R) : R := if Rlt_dec lp LOG_PHRASE_PROB_SMOOTH then LOG_PHRASE_PROB_SMOOTH else lp.
Definition logpt_s_ (s t : phrase) (m : pm) : R := floor_lp (ln (Q2R (hat_pTrgGivenSrc s t (p_tab m)))).
Definition logps_t_ (s t : phrase) (m : pm) : R := floor_lp (ln (Q2R (hat_pSrcGivenTrg s t (p_tab m)))).

(** CategPhrasePairFilter::phrasePairIsOk: CategPhrasePairFilter.cc:40-90 (the two maps have the three tags as keys) *)
Definition categ_count (c : str) (p : sphrase) : nat := length (filter (fun w => if str_dec w c then true else false) p).
Definition phrasePairIsOk (s t : sphrase) : bool :=
  forallb (fun c => Nat.eqb (categ_count c s) (categ_count c t)) [T "<digit>"; T "<number>"; T "<alfanum>"].

(** numReps*weight, weight = pp_sum/pp_num (PhraseExtractionTable.cc:964-978); [None]: 0/0 or not an integer *)
Definition scaled_weight (numReps : Z) (p : ppair str) : option Z :=
  if Nat.eqb (pp_num p) 0 then None
  else let x := numReps * Z.of_N (pp_sum p) in
       let n := Z.of_nat (pp_num p) in
       if x mod n =? 0 then Some (x / n) else None.
(** storePhrasePairs: _wbaIncrPhraseModel.cc:178-199 *)
Fixpoint storePhrasePairs (vec : list (ppair str)) (numReps : Z) (m : pm) : option pm :=
  match vec with
  | [] => Some m
  | p :: r => match scaled_weight numReps p with
              | None => None
              | Some c => storePhrasePairs r numReps (strIncrCountsOfEntry (pp_s p) (pp_t p) c m)
              end
  end.
(** extendModelFromPairPlusAlig with BRF=false: _wbaIncrPhraseModel.cc:105-157 (ns.size()-1 of an empty vector wraps around: too long) *)
Definition extendModelFromPairPlusAlig (P : epars) (ns t : sphrase) (A : wam) (numReps : Z) (m : pm) : option pm :=
  if ((length t <? MAX_SENTENCE_LENGTH) && match ns with [] => false | _ :: s => length s <? MAX_SENTENCE_LENGTH end)%nat then
    let vecPhPair := extractOld A ns t P [] in
    let vecFiltPhPair := filter (fun p => phrasePairIsOk (pp_s p) (pp_t p)) vecPhPair in
    storePhrasePairs vecFiltPhPair numReps m
  else Some m.
(** addNullWordToStrVec: :242-252 *)
Definition addNullWordToStrVec (vw : sphrase) : sphrase := T "NULL" :: vw.
(** extendModelFromAlignments: :61-84; the items are what getNextAlignment delivers (the file reader is not modelled), get_ns() is the
    source sentence with NULL in front *)
Fixpoint extendModelFromAlignments (P : epars) (items : list titem) (m : pm) : option pm :=
  match items with
  | [] => Some m
  | i :: r => match extendModelFromPairPlusAlig P (addNullWordToStrVec (it_s i)) (it_t i) (it_A i) (it_reps i) m with
              | None => None
              | Some m' => extendModelFromAlignments P r m'
              end
  end.
(** generateWbaIncrPhraseModel: :33-41, extendModel :44-58 *)
Definition generateWbaIncrPhraseModel (P : epars) (items : list titem) (m : pm) : option pm := extendModelFromAlignments P items pm_clear.
(** extModelFromPairAligVec: :87-102 *)
Fixpoint ext_vec_loop (P : epars) (sVec tVec : list sphrase) (was : list wam) (numReps : Z) (m : pm) : option pm :=
  match sVec, tVec, was with
  | s :: sVec', t :: tVec', A :: was' =>
      match extendModelFromPairPlusAlig P (addNullWordToStrVec s) t A numReps m with
      | None => None
      | Some m' => ext_vec_loop P sVec' tVec' was' numReps m'
      end
  | _, _, _ => Some m
  end.
Definition extModelFromPairAligVec (P : epars) (sVec tVec : list sphrase) (was : list wam) (numReps : Z) (m : pm) : option pm :=
  if (Nat.eqb (length sVec) (length tVec) && Nat.eqb (length sVec) (length was))%bool then ext_vec_loop P sVec tVec was numReps m else Some m.

(** ** table files *)
(** isTargetPhrase: HatTriePhraseTable.cc:538-547 *)
Definition isTargetPhrase (vec : phrase) : bool := forallb (fun w => negb (N.eqb w UNUSED_WORD)) vec.
(** begin: :554-566, over the entries [es] in iteration order; [None]: runs past the end of a table without target phrases *)
Fixpoint hat_begin (es : hat) : option (phrase * hat) :=
  match es with
  | [] => None
  | (k, _) :: r => match pt_keyToVector k with None => None | Some vec => if isTargetPhrase vec then Some (vec, r) else hat_begin r end
  end.
(** operator++ until end(): :577-595 *)
Fixpoint hat_next (es : hat) : option (list phrase) :=
  match es with
  | [] => Some []
  | (k, c) :: r => match pt_keyToVector k with
                   | None => None
                   | Some vec => match hat_next r with
                                 | None => None
                                 | Some rest => Some (if negb (isTargetPhrase vec) || (c =? 0) then rest else vec :: rest)
                                 end
                   end
  end.
Definition hat_targets (es : hat) : option (list phrase) :=
  match hat_begin es with None => None | Some (t, r) => match hat_next r with None => None | Some ts => Some (t :: ts) end end.
(** printTTable: WbaIncrPhraseModel.cc:34-61; the inner map is iterated in the order of [hat_getEntriesForTarget]'s list (the theorems
    allow any order of the lines) *)
Definition toWords (is : phrase) (v : voc) : sphrase := map (fun i => wordIndexToString (N.to_nat i) v) is.
Fixpoint print_targets (m : pm) (ts : list phrase) : option (list tline) :=
  match ts with
  | [] => Some []
  | t :: r => match hat_getEntriesForTarget t (p_tab m), print_targets m r with
              | Some (_, res), Some rest =>
                  Some (map (fun e => mkline (toWords (fst e) (p_sv m)) (toWords t (p_tv m)) (fst (snd e)) (snd (snd e))) res ++ rest)
              | _, _ => None
              end
  end.
Definition printTTable (m : pm) (es : hat) : option (list tline) :=
  match hat_targets es with None => None | Some ts => print_targets m ts end.
(** %.8f of an integral value *)
Definition fmt8 (z : Z) : str := (if z <? 0 then [ascii_of_nat 45] else []) ++ dec (Z.to_nat (Z.abs z)) ++ T ".00000000".
(** one printed line, WbaIncrPhraseModel.cc:51-57 *)
Definition line_text (l : tline) : str :=
  concat (map (fun w => w ++ [SP]) (l_s l)) ++ T "|||" ++ concat (map (fun w => SP :: w) (l_t l)) ++ T " ||| " ++ fmt8 (l_cs l) ++ T " " ++ fmt8 (l_cst l).
Definition ttable_file (ls : list tline) : str := concat (map (fun l => line_text l ++ [NL]) ls).

(** atof of a field: sign, digits, fraction; [None]: not an integral decimal numeral (outside the model) *)
Fixpoint split_digits (s : str) : str * str :=
  match s with
  | [] => ([], [])
  | c :: r => match dval c with Some _ => let (a, b) := split_digits r in (c :: a, b) | None => ([], s) end
  end.
Definition atof (s : str) : option Z :=
  let '(neg, body) := match s with
                      | c :: r => if Ascii.eqb c "-"%char then (true, r) else if Ascii.eqb c "+"%char then (false, r) else (false, s)
                      | [] => (false, []) end in
  let (ip, rest) := split_digits body in
  let v := Z.of_N (digits ip 0) in
  let z := if neg then - v else v in
  match ip with
  | [] => None
  | _ => match rest with
         | [] => Some z
         | c :: f => if Ascii.eqb c "."%char && forallb (fun d => Ascii.eqb d "0"%char) f then Some z else None
         end
  end.
(** the two reading loops of loadPlainTextTTable: _incrPhraseModel.cc:357-371: fields i.. up to "|||" or the end; the fields read and
    the final i *)
Fixpoint read_phrase (fuel : nat) (buf : str) (NF i : nat) : option (sphrase * nat) :=
  match fuel with
  | O => None
  | S f => if (NF <? i)%nat then Some ([], i)
           else match dollar SP buf i with
                | None => None
                | Some w => if str_dec w (T "|||") then Some ([], i)
                            else match read_phrase f buf NF (S i) with None => None | Some (ws, j) => Some (w :: ws, j) end
                end
  end.
(** one line: :352-393 (NF is unsigned, NF > 1 on this path) *)
Definition load_line (buf : str) (m : pm) : option pm :=
  match get_NF SP buf with
  | None => None
  | Some NF =>
      if (1 <? NF)%nat then
        match read_phrase (S NF) buf NF 1 with
        | None => None
        | Some (s, i) =>
            match read_phrase (S (S NF)) buf NF (S i) with
            | None => None
            | Some (t, i) =>
                if (i <? NF - 1)%nat then
                  match dollar SP buf i, dollar SP buf (S i), dollar SP buf (S (S i)) with
                  | Some sep, Some f1, Some f2 =>
                      if str_dec sep (T "|||") then
                        match s, t with
                        | [], _ | _, [] => Some m
                        | _, _ => match atof f1, atof f2 with Some cs, Some cst => Some (strAddTableEntry s t cs cst m) | _, _ => None end
                        end
                      else Some m
                  | _, _, _ => None
                  end
                else Some m
            end
        end
      else Some m
  end.
Fixpoint load_ttable_lines (ls : list str) (m : pm) : option pm :=
  match ls with [] => Some m | l :: r => match load_line l m with None => None | Some m' => load_ttable_lines r m' end end.
(** loadPlainTextTTable: _incrPhraseModel.cc:335-400 (an open file) *)
Definition loadPlainTextTTable (file : str) (m : pm) : option pm :=
  match read_lines file with None => None | Some ls => load_ttable_lines ls m end.
