(** The text side of interactive translation in ThotDecoder: the prefix kept for a user, its expansion, and the
    merging of the translator's answer with it.
    /repo/src/stack_dec/ThotDecoder.cc:2367-2642 (startCat, addStrToPref, setPref, resetPrefix) and :2902-3226.
    [None] is an out-of-range read of a string. The translator, the pre/post-processor and the word predictor are
    arbitrary functions, which may differ from one call to the next (record [env]). Locks, verbose output and the
    switching of best-score pruning are left out. *)
From Coq Require Import Ascii String Arith List Bool.
From Verif Require Import TextSpec TextModel CatSpec.
Import ListNotations.

(** END_OF_PREF_MARK: /repo/src/smt_preproc/SmtPreprocDefs.h:51; MINIMUM_WORD_LENGTH_TO_EXPAND: ThotDecoder.h:73 *)
Definition END_OF_PREF_MARK : str := T "<END_OF_PREF_MARK>".
Definition MINIMUM_WORD_LENGTH_TO_EXPAND : nat := 1.

(** the virtual functions the code calls during one operation *)
Record env := {
  e_pre : str -> str;              (* BasePrePosProcessor::preprocLine *)
  e_post : str -> str;             (* BasePrePosProcessor::postprocLine *)
  e_iscat : str -> bool;           (* BasePrePosProcessor::isCategory *)
  e_pred : list str -> str -> str; (* getBestSuffixGivenHist, second component *)
  e_trans : str -> str             (* resetPrefix(); addStrToPrefix(prefix,rejectedWords) / translateWithPrefix *)
}.

(** robustMergeTransWithUserPref: :3066-3090 (i is the position in trans, prefIdx the position in totalPrefix;
    the lists are what is left of both; prefIdx may step one past the end, which ends the merging just as well) *)
Fixpoint merge_loop (t p out : str) : str :=
  match t with
  | [] => out ++ p
  | c :: t' =>
      match p with
      | [] => merge_loop t' [] (out ++ [c])
      | _ => let (b, p1) := span (fun x => Ascii.eqb x SP) p in
             let out := out ++ b in
             if Ascii.eqb c SP then merge_loop t' p1 out else merge_loop t' (tl p1) (out ++ [c])
      end
  end.
(** robustMergeTransWithUserPref: :3044-3093 *)
Definition robustMergeTransWithUserPref (trans totalPrefix : str) : option str :=
  match stringToStringVector totalPrefix, stringToStringVector trans with
  | Some totalPrefixVec, Some transVec =>
      if isPrefixStrVec totalPrefixVec transVec then Some (merge_loop trans totalPrefix []) else Some totalPrefix
  | _, _ => None
  end.

(** robustMergePostProcTransWithUserPref: :3097-3112 *)
Fixpoint overwrite_loop (p : str) (i : nat) (catResult : str) : str :=
  match p with
  | [] => catResult
  | c :: p' => overwrite_loop p' (S i)
                 (if i <? length catResult then firstn i catResult ++ c :: skipn (S i) catResult else catResult ++ [c])
  end.
Definition robustMergePostProcTransWithUserPref (postproctrans totalPrefix : str) : str :=
  overwrite_loop totalPrefix 0 postproctrans.

(** expandLastWord: :3116-3165; returns the new partialSent and the value returned *)
Fixpoint back_to_blank (s : str) (i : nat) : nat :=
  match i with O => O | S i' => if Ascii.eqb (nth i s NUL) SP then i else back_to_blank s i' end.
Definition expandLastWord (pred : list str -> str -> str) (partialSent : str) : option (str * str) :=
  if 0 <? length partialSent then
    let n := length partialSent in
    let lastWordIsComplete := Ascii.eqb (nth (n - 1) partialSent NUL) SP in
    let lastWord := if lastWordIsComplete then []
                    else let i := back_to_blank partialSent n in
                         let i := if Ascii.eqb (nth i partialSent NUL) SP then S i else i in
                         skipn i partialSent in
    if lastWordIsComplete || (length lastWord <=? MINIMUM_WORD_LENGTH_TO_EXPAND) then Some (partialSent, lastWord)
    else match stringToStringVector partialSent with
         | None => None
         | Some strVec =>
             let k := length strVec in
             let hist := (if 3 <=? k then [nth (k - 3) strVec []] else []) ++ (if 2 <=? k then [nth (k - 2) strVec []] else []) in
             let suf := pred hist lastWord in
             Some (if 0 <? length suf then partialSent ++ suf ++ [SP] else partialSent ++ suf, lastWord ++ suf)
         end
  else Some (partialSent, []).

(** getWordCompletion: :3204-3226 *)
Fixpoint common_len (a b : str) : nat :=
  match a, b with x :: a', y :: b' => if Ascii.eqb x y then S (common_len a' b') else 0 | _, _ => 0 end.
Definition getWordCompletion (uncompleteWord completeWord : str) : str :=
  if length completeWord <=? length uncompleteWord then []
  else if 1 <=? common_len uncompleteWord completeWord then skipn (length uncompleteWord) completeWord else [].

(** std::string::find(pat,0) *)
Fixpoint find (pat s : str) (i : nat) : option nat :=
  if isPrefix pat s then Some i else match s with [] => None | _ :: s' => find pat s' (S i) end.

(** postprocWithCriticalError: :2954-2966 *)
Definition lastPrefWordIsCategory (e : env) (preprocPrefUnexpanded : str) : bool :=
  let n := length preprocPrefUnexpanded in
  if (0 <? n) && Ascii.eqb (nth (n - 1) preprocPrefUnexpanded NUL) SP
  then e_iscat e (getLastWord preprocPrefUnexpanded) else false.
(** :2968-2979: prefEndInTrans and the completion of the last word found in the translation *)
Definition end_in_trans (isCat : bool) (preprocPrefUnexpanded trans : str) : nat * str :=
  let n := length preprocPrefUnexpanded in
  if (0 <? n) && (n <? length trans) && negb (Ascii.eqb (nth (n - 1) preprocPrefUnexpanded NUL) SP) then
    let (w, rest) := span (fun c => negb (Ascii.eqb c SP)) (skipn n trans) in
    let k := n + length w in
    (if k <? length trans then S k else k, if isCat then [] else w)
  else (n, []).
(** :2982-2995 *)
Definition category_completion (e : env) (unpreprocPref preprocPref : str) : str :=
  let m := length unpreprocPref in
  if (0 <? m) && Ascii.eqb (nth (m - 1) unpreprocPref NUL) SP then []
  else getWordCompletion (getLastWord unpreprocPref) (getLastWord (e_post e (cstr preprocPref))).
(** postprocWithCriticalError: :2930-3041; trans[trans.size()] is the terminating NUL, a read beyond it is undefined *)
Definition postprocWithCriticalError (e : env) (unpreprocPref preprocPrefUnexpanded preprocPref trans : str) : option str :=
  let isCat := lastPrefWordIsCategory e preprocPrefUnexpanded in
  let (prefEndInTrans, lastPrefWordCompletion) := end_in_trans isCat preprocPrefUnexpanded trans in
  let lastPrefWordCompletion := if isCat then category_completion e unpreprocPref preprocPref else lastPrefWordCompletion in
  if length trans + 1 <? prefEndInTrans then None
  else
    let startStr := firstn prefEndInTrans (trans ++ [NUL]) in
    let endStr := skipn prefEndInTrans trans in
    let modifiedTrans := match endStr with
                         | [] => startStr ++ SP :: END_OF_PREF_MARK
                         | _ => startStr ++ END_OF_PREF_MARK ++ SP :: endStr
                         end in
    let postprocModifiedTrans := e_post e (cstr modifiedTrans) in
    let startOfPrefMarker := match find END_OF_PREF_MARK postprocModifiedTrans 0 with
                             | Some i => i | None => length postprocModifiedTrans end in
    let suffixInModifiedTrans := skipn (startOfPrefMarker + length END_OF_PREF_MARK) postprocModifiedTrans in
    let m := length unpreprocPref in
    let unpreprocPref := if (0 <? m) && Ascii.eqb (nth (m - 1) unpreprocPref NUL) SP
                         then removeLastBlank unpreprocPref else unpreprocPref in
    Some (unpreprocPref ++ lastPrefWordCompletion ++ suffixInModifiedTrans).

(** robustObtainFinalOutput: :2902-2927 *)
Definition robustObtainFinalOutput (e : env) (unpreprocPref preprocPrefUnexpanded preprocPref trans : str) : option str :=
  match stringToStringVector preprocPref, stringToStringVector trans with
  | Some preprocPrefVec, Some transVec =>
      let checkedTrans := if isPrefixStrVec preprocPrefVec transVec then trans else preprocPref in
      match postprocWithCriticalError e unpreprocPref preprocPrefUnexpanded preprocPref checkedTrans with
      | None => None
      | Some postproctrans => Some (robustMergePostProcTransWithUserPref postproctrans unpreprocPref)
      end
  | _, _ => None
  end.

(** addStrToPrefAux: :2474-2552; [preprocId] says whether a pre/post-processor is in use. State: totalPrefixVec[idx];
    result: its new value and catResult *)
Definition addStrToPrefAux (preprocId : bool) (e : env) (totalPrefix strToAddToPref : str) : option (str * str) :=
  let totalPrefix := match totalPrefix with [] => strToAddToPref | _ => totalPrefix ++ strToAddToPref end in
  if preprocId then
    let preprocPrefUnexpanded := e_pre e totalPrefix in
    match expandLastWord (e_pred e) preprocPrefUnexpanded with
    | None => None
    | Some (preprocPref, _) =>
        let trans := e_trans e preprocPref in
        match robustObtainFinalOutput e totalPrefix preprocPrefUnexpanded preprocPref (cstr trans) with
        | None => None
        | Some catResult => Some (totalPrefix, catResult)
        end
    end
  else
    match expandLastWord (e_pred e) totalPrefix with
    | None => None
    | Some (expPref, _) =>
        match robustMergeTransWithUserPref (e_trans e expPref) expPref with
        | None => None
        | Some catResult => Some (totalPrefix, catResult)
        end
    end.
(** setPref: :2573-2588 *)
Definition setPref (preprocId : bool) (e : env) (totalPrefix prefStr : str) : option (str * str) :=
  let prefStr := cstr prefStr in
  if isPrefix totalPrefix prefStr
  then addStrToPrefAux preprocId e totalPrefix (cstr (skipn (length totalPrefix) prefStr))
  else addStrToPrefAux preprocId e [] (cstr prefStr).
(** startCat: :2392-2428; the source sentence is part of [e_trans] *)
Definition startCat (preprocId : bool) (e : env) : option (str * str) :=
  if preprocId then Some ([], e_post e (cstr (e_trans e []))) else Some ([], e_trans e []).
(** one call of the API on the state of a user; resetPrefix (:2597-2633) shows nothing, modelled as an empty output *)
Definition cat_step (preprocId : bool) (totalPrefix : str) (o : cat_op) (e : env) : option (str * str) :=
  match o with
  | OpStart => startCat preprocId e
  | OpAdd s => addStrToPrefAux preprocId e totalPrefix (cstr s)
  | OpSet s => setPref preprocId e totalPrefix s
  | OpReset => Some ([], [])
  end.
Fixpoint cat_session (preprocId : bool) (totalPrefix : str) (os : list (cat_op * env)) : option (str * list str) :=
  match os with
  | [] => Some (totalPrefix, [])
  | (o, e) :: os' =>
      match cat_step preprocId totalPrefix o e with
      | None => None
      | Some (tp, out) =>
          match cat_session preprocId tp os' with
          | None => None
          | Some (tp', outs) => Some (tp', out :: outs)
          end
      end
  end.
