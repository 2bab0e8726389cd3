(** Annotated source sentences: src/stack_dec/TranslationMetadata.h:109-474.  A position in a string or token vector is the suffix starting there.
    Reading the token vector past its end is None. *)
From Coq Require Import Ascii String Arith List Bool.
From Verif Require Import TextSpec TextModel.
Import ListNotations.
Open Scope nat_scope.
Local Notation seg := (nat * nat)%type.

Definition LT : ascii := "<"%char.
Definition GT : ascii := ">"%char.
Definition SLASH : ascii := "/"%char.
(** obtainStartTag, obtainEndTag :327-343; the tag names :39-41 *)
Definition startTag (name : str) : str := LT :: name ++ [GT].
Definition endTag (name : str) : str := LT :: SLASH :: name ++ [GT].
Definition ANNOT : str := list_ascii_of_string "phr_pair_annot".
Definition SRC : str := list_ascii_of_string "src_segm".
Definition TRG : str := list_ascii_of_string "trg_segm".
Definition xmlTagSet : list str := [startTag ANNOT; endTag ANNOT; startTag SRC; endTag SRC; startTag TRG; endTag TRG].

(** the while loop of xmlTag :354-390: [aux] is auxStr, [s] the rest of the sentence; Some (tag, rest after it) *)
Fixpoint tag_loop (aux s : str) : option (str * str) :=
  match s with
  | [] => None
  | c :: r => let aux := aux ++ [c] in
              if Ascii.eqb c GT then (if existsb (str_eqb aux) xmlTagSet then Some (aux, r) else None)
              else if Ascii.eqb c SP then None else tag_loop aux r
  end.
(** xmlTag :346-396 *)
Definition xmlTag (s : str) : option (str * str) :=
  match s with c :: r => if Ascii.eqb c LT then tag_loop [LT] r else None | [] => None end.
(** tokenizeSrcSentence :289-322; [prev] is srcSent[i-1] (None for i=0).  Reading srcSent[size] gives NUL, which is not a blank. *)
Fixpoint tokenize_loop (fuel : nat) (prev : option ascii) (s result : str) : str :=
  match fuel with
  | 0 => result
  | S f => match s with
           | [] => result
           | c :: r => match xmlTag s with
                       | Some (tag, rest) =>
                           let result := match prev with Some p => if Ascii.eqb p SP then result else result ++ [SP] | None => result end in
                           let result := result ++ tag in
                           let result := if Ascii.eqb (hd NUL rest) SP then result else result ++ [SP] in
                           tokenize_loop f (Some GT) rest result
                       | None => tokenize_loop f (Some c) r (result ++ [c])
                       end
           end
  end.
Definition tokenizeSrcSentence (s : str) : str := tokenize_loop (length s) None s [].

(** the loops collecting a segment (:428-432 and :453-457): the words before the end tag, and what follows the tag; None if there is no end tag *)
Fixpoint until (stop : str) (toks : list str) (acc : list str) : option (list str * list str) :=
  match toks with [] => None | t :: r => if str_eqb t stop then Some (acc, r) else until stop r (acc ++ [t]) end.
(** constraintFound :399-487; on success the source and target words, and the tokens after the constraint *)
Definition constraintFound (toks : list str) : option (list str * list str * list str) :=
  match toks with
  | t1 :: t2 :: r =>
      if str_eqb t1 (startTag ANNOT) && str_eqb t2 (startTag SRC) then
        match until (endTag SRC) r [] with
        | None => None
        | Some (src, r) =>
            if length src =? 0 then None else
            match r with
            | t3 :: r => if str_eqb t3 (startTag TRG) then
                           match until (endTag TRG) r [] with
                           | None => None
                           | Some (trg, r) => if length trg =? 0 then None else
                               match r with t4 :: r => if str_eqb t4 (endTag ANNOT) then Some (src, trg, r) else None | [] => None end
                           end
                         else None
            | [] => None
            end
        end
      else None
  | _ => None
  end.
(** srcPhrTransMap[k]=v : std::map over pairs, kept in key order *)
Definition seg_ltb (a b : seg) : bool := (fst a <? fst b) || ((fst a =? fst b) && (snd a <? snd b)).
Fixpoint minsert (k : seg) (v : list str) (m : list (seg * list str)) : list (seg * list str) :=
  match m with
  | [] => [(k, v)]
  | (k', v') :: r => if seg_ltb k k' then (k, v) :: m else if seg_ltb k' k then (k', v') :: minsert k v r else (k, v) :: r
  end.
(** the scan :156-195: do { ... } while(i<tokens.size()) *)
Fixpoint scan (fuel : nat) (toks : list str) (sent : list str) (m : list (seg * list str)) : option (list str * list (seg * list str)) :=
  match fuel with
  | 0 => None
  | S f =>
      match constraintFound toks with
      | Some (src, trg, rest) =>
          let start := length sent + 1 in
          let stop := start + length src - 1 in
          let sent := sent ++ src in
          let m := minsert (start, stop) trg m in
          match rest with [] => Some (sent, m) | _ => scan f rest sent m end
      | None => match toks with
                | [] => None
                | t :: rest => match rest with [] => Some (sent ++ [t], m) | _ => scan f rest (sent ++ [t]) m end
                end
      end
  end.
(** obtainTransConstraints :132-224: the source sentence without annotations (getSrcSentVec) and the constraint map *)
Definition obtainTransConstraints (raw : str) : option (list str * list (seg * list str)) :=
  match raw with
  | [] => Some ([], [])
  | _ => match stringToStringVector (tokenizeSrcSentence raw) with
         | None => None
         | Some toks => scan (S (length toks)) toks [] []
         end
  end.
