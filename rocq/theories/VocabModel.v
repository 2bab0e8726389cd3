(** src/nlp_common/SingleWordVocab.cc.  One side (source or target) of the vocabulary; the two sides are the same code on
    separate maps (source lines / target lines are both cited). *)
From Coq Require Import Ascii String Arith NArith List Bool.
From Verif Require Import TextSpec TextModel AMap VocabSpec.
Import ListNotations.

(** stringToSrcWordIndexMap / srcWordIndexMapToString (SingleWordVocab.h) *)
Record voc := mkvoc { s2i : list (str * nat); i2s : list (nat * str) }.
Definition vput (w : str) (i : nat) (v : voc) : voc := mkvoc (aset str_dec w i (s2i v)) (aset Nat.eq_dec i w (i2s v)).
(** clearSrcVocab/clearTrgVocab :349-368 and the add_*_word_to_*voc functions :378-417; StatModelDefs.h:68-73 *)
Definition clear_voc : voc :=
  vput (T "<UNUSED_WORD>") 2 (vput (T "UNKNOWN_WORD") 1 (vput (T "NULL") 0 (mkvoc [] []))).
(** addSrcSymbol :120-137, addTrgSymbol :270-287 *)
Definition addSymbol (w : str) (v : voc) : nat * voc :=
  match aget str_dec w (s2i v) with
  | Some i => (i, v)
  | None => let i := length (s2i v) in (i, vput w i v)
  end.
(** strVectorToSrcIndexVector :105-117, strVectorToTrgIndexVector :256-268 *)
Fixpoint strVectorToIndexVector (ws : list str) (v : voc) : list nat * voc :=
  match ws with
  | [] => ([], v)
  | w :: ws' => let (i, v1) := addSymbol w v in let (is, v2) := strVectorToIndexVector ws' v1 in (i :: is, v2)
  end.
(** stringToSrcWordIndex :66-76 (:217-227), wordIndexToSrcString :79-89 (:230-240), existSrcSymbol :92-102 (:243-253),
    getSrcVocabSize :61-64 (:211-214) *)
Definition stringToWordIndex (w : str) (v : voc) : nat := match aget str_dec w (s2i v) with Some i => i | None => 1 end.
Definition wordIndexToString (i : nat) (v : voc) : str := match aget Nat.eq_dec i (i2s v) with Some w => w | None => T "UNKNOWN_WORD" end.
Definition existSymbol (w : str) (v : voc) : bool := match aget str_dec w (s2i v) with Some _ => true | None => false end.
Definition vocabSize (v : voc) : nat := length (s2i v).

(** operator<< of an unsigned int *)
Definition digit (d : nat) : ascii := ascii_of_nat (48 + d).
Fixpoint dec_aux (fuel n : nat) (acc : str) : str :=
  match fuel with
  | O => acc
  | S f => let acc := digit (n mod 10) :: acc in if n / 10 =? 0 then acc else dec_aux f (n / 10) acc
  end.
Definition dec (n : nat) : str := dec_aux (S n) n [].
(** atoi of a field (no leading blanks): optional sign, then digits up to the first other character.
    Values above INT_MAX are undefined ([None]); a negative value is converted to the unsigned WordIndex. *)
Definition dval (c : ascii) : option nat :=
  let n := nat_of_ascii c in if (48 <=? n) && (n <=? 57) then Some (n - 48) else None.
Fixpoint digits (s : str) (v : N) : N :=
  match s with
  | [] => v
  | c :: r => match dval c with Some d => digits r (10 * v + N.of_nat d)%N | None => v end
  end.
Definition INT_MAX : N := 2147483647%N.
Definition atoi (s : str) : option nat :=
  let '(neg, body) := match s with
                      | c :: r => if Ascii.eqb c "-"%char then (true, r) else if Ascii.eqb c "+"%char then (false, r) else (false, s)
                      | [] => (false, []) end in
  let n := digits body 0 in
  if (n <=? INT_MAX)%N then Some (N.to_nat (if neg then (2 ^ 32 - n) mod 2 ^ 32 else n)%N) else None.

(** operator<< of the map :28-40 and printGIZASrcVocab :183-196 (:333-346): entries in the iteration order of the map *)
Definition print_entries (l : list (str * nat)) : str :=
  concat (map (fun e => dec (snd e) ++ SP :: fst e ++ [NL]) l).
(** loadGIZASrcVocab :144-180, loadGIZATrgVocab :295-330.  [LErr] is THOT_ERROR with the partially filled maps. *)
Inductive lres := LOk (v : voc) | LErr (v : voc).
Fixpoint load_lines (ls : list str) (v : voc) : option lres :=
  match ls with
  | [] => Some (LOk v)
  | l :: ls' =>
      match get_NF SP l with
      | None => None
      | Some NF =>
          if 1 <? NF then
            if (NF =? 2) || (NF =? 3) then
              match dollar SP l 1, dollar SP l 2 with
              | Some f1, Some f2 => match atoi f1 with Some i => load_lines ls' (vput f2 i v) | None => None end
              | _, _ => None
              end
            else Some (LErr v)
          else load_lines ls' v
      end
  end.
Definition loadVocab (file : str) : option lres :=
  match read_lines file with None => None | Some ls => load_lines ls clear_voc end.
