(** Dictionary features: src/stack_dec/DictFeat.h, src/stack_dec/OnTheFlyDictFeat.h; corrections of a sentence without phrases:
    src/error_correction/NonPbEcModelForNbUcat.cc.  Scores are rationals; a score that was never assigned is None. *)
From Coq Require Import Ascii String ZArith QArith List Bool Arith.
From Verif Require Import TextSpec TextModel VocabSpec VocabModel GfmtModel DescModel EcModel.
Import ListNotations.
Local Open Scope nat_scope.

(** ** two-level maps; std::map keeps its keys sorted, here they are in order of insertion *)
Definition phrase_dec : forall a b : list str, {a = b} + {a <> b} := list_eq_dec str_dec.
Section MAPS.
Context {K V : Type}.
Variable keq : forall a b : K, {a = b} + {a <> b}.
Fixpoint mget (m : list (K * V)) (k : K) : option V := match m with [] => None | (k', v) :: r => if keq k' k then Some v else mget r k end.
Fixpoint mput (m : list (K * V)) (k : K) (v : V) : list (K * V) := match m with [] => [(k, v)] | (k', v') :: r => if keq k' k then (k', v) :: r else (k', v') :: mput r k v end.
End MAPS.
Definition dict (V : Type) : Type := list (list str * list (list str * V)).
(** insertEntry: DictFeat.h:185-203; addTransOption: OnTheFlyDictFeat.h:198-223 *)
Definition addEntry {V} (d : dict V) (src trg : list str) (v : V) : dict V :=
  match mget phrase_dec d src with None => mput phrase_dec d src [(trg, v)] | Some e => mput phrase_dec d src (mput phrase_dec e trg v) end.
(** scorePhrasePairUnweighted: DictFeat.h:213-229, OnTheFlyDictFeat.h:117-140 *)
Definition lookup {V} (d : dict V) (src trg : list str) : option V := match mget phrase_dec d src with None => None | Some e => mget phrase_dec e trg end.
(** obtainTransOptions: DictFeat.h:232-249, OnTheFlyDictFeat.h:143-163 *)
Definition transOptions {V} (d : dict V) (src : list str) : list (list str) := match mget phrase_dec d src with None => [] | Some e => map fst e end.

(** ** DictFeat *)
Definition BARS : str := T "|||".
(** the two loops of extractEntryInfo; [n] at least NF + 1 - i *)
Fixpoint scan (n : nat) (l : str) (i : nat) (acc : list str) : list str * nat :=
  match n with O => (acc, i) | S n' => if i <=? NFv l then (if isw (fld l i) BARS then (acc, i) else scan n' l (S i) (acc ++ [fld l i])) else (acc, i) end.
(** extractEntryInfo: DictFeat.h:141-182; the value returned, the phrases and the score.  awk.NF-1 is unsigned: without fields it is 2^32-1 *)
Definition extractEntryInfo (l : str) : bool * list str * list str * option Q :=
  let '(src, i) := scan (S (NFv l)) l 1 [] in
  if i =? NFv l then (false, src, [], None)
  else let '(trg, i) := scan (S (NFv l)) l (S i) [] in
       if negb (0 <? NFv l) || negb (i =? NFv l - 1) then (false, src, trg, None)
       else (true, src, trg, Some (match atofq (fld l (NFv l)) with Some q => q | None => 0%Q end)).
(** load: DictFeat.h:116-138; the value returned by extractEntryInfo is not looked at.  None: the file does not exist *)
Definition loadDict (f : option str) : option (dict (option Q)) :=
  match f with
  | None => None
  | Some f => Some (fold_left (fun d l => let '(_, src, trg, scr) := extractEntryInfo l in addEntry d src trg scr) (file_lines f) [])
  end.
Definition DICT_SMOOTH : Q := (- (9999999 # 1))%Q.
(** scorePhrasePairUnweighted: DictFeat.h:213-229; None: the score was never assigned *)
Definition dictScore (d : dict (option Q)) (src trg : list str) : option Q := match lookup d src trg with None => Some DICT_SMOOTH | Some v => v end.

(** ** OnTheFlyDictFeat: a history of calls of addTransOption (:198-223) and clearDict (:226-230) *)
Inductive dcall := DAdd (src trg : list str) (score : Q) (info : str) | DClear.
Definition dstep (d : dict (Q * str)) (c : dcall) : dict (Q * str) := match c with DAdd s t q i => addEntry d s t (q, i) | DClear => [] end.
Definition otfScore (d : dict (Q * str)) (src trg : list str) : Q := match lookup d src trg with None => 0%Q | Some (q, _) => q end.
(** getTransOptInfo: :165-190; the string and [found] *)
Definition otfInfo (d : dict (Q * str)) (src trg : list str) : str * bool := match lookup d src trg with None => ([], false) | Some (_, i) => (i, true) end.

(** ** NonPbEcModelForNbUcat.  [sim] is similarityGivenPrefix and [fix_] correctStrGivenPref of the error correction model (None: undefined behaviour) *)
Section EC.
Variable sim : list str -> list str -> option Z.
Variable fix_ : list str -> list str -> option (list str).
(** correctedSent: :172-242, for the two alignments nonPhraseBasedAlign makes: without cuts, and with the last indices as only cuts.
    sourceCuts has one element, the last index of the output, so l is 1 when the alignment has cuts and 0 when it has none *)
Definition correctedSent (aligned : bool) (out pref : list str) : option (list str) :=
  if aligned then
    match fix_ out pref with
    | None => None
    | Some corr =>
        let lp := last pref [] in
        match lp with
        | [] => None                                            (* lastPrefSegm.back()[size()-1] of an empty string *)
        | _ => if Ascii.eqb (last lp NUL) SP then
                 match corr with
                 | [] => None                                   (* corrSent[corrSent.size()-1] of an empty vector *)
                 | _ => Some (if str_dec (last corr [] ++ [SP]) lp then removelast corr ++ [lp] else corr)
                 end
               else Some corr
        end
    end
  else Some out.
(** correct: :44-62, nonPhraseBasedAlign: :66-117, obtainVectorWithSegms: :120-147 (with an empty output the cut is 2^32-1 and elements of an
    empty vector are read), addSegm: :150-156 *)
Definition correct (out pref : list str) (maxMapSize : nat) : option (list (Z * list str)) :=
  match out with
  | [] => None
  | _ => match pref with
         | [] => if 1 <=? maxMapSize then option_map (fun c => [(0%Z, c)]) (correctedSent false out pref) else Some []
         | _ => match sim out pref with
                | None => None
                | Some s => if 1 <=? maxMapSize then option_map (fun c => [(s, c)]) (correctedSent true out pref) else Some []
                end
         end
  end.
End EC.
