(** Model of /repo/src/stack_dec/JsonTranslationMetadata.h: a source sentence given as a JSON document with the translations of some of its
    phrases.  The characters of the document are read by the bundled /repo/src/picojson/picojson.h, which is not modelled: the model starts from
    the value that parser returned.  Constraint checking (:225-290, :363-420) is, word for word, that of TranslationMetadata.h (DecModel). *)
From Coq Require Import Ascii String Arith List Bool.
From Verif Require Import TextSpec TextModel MetaModel.
Import ListNotations.
Open Scope nat_scope.
Local Notation seg := (nat * nat)%type.

(** an element of the array "tex_segmentation": an object whose fields "original" and "translation" are strings (Some) or are absent or of another
    type (None); [Other] is an element that is no object *)
Inductive tag := Tag (original translation : option str) | Other.
(** what :120-143 find in the raw sentence: [NotJson]: the parser reports an error, or the value is no object; [Doc]: title = the string
    src_title.preprocessed if present; tags = the array tex_segmentation if present *)
Inductive input := Empty | NotJson (raw : str) | Doc (title : option str) (tags : option (list tag)).
(** [Undef]: a vector is read past its end; [Throws]: the assertion of picojson.h:441-444 (get of a value that is no object), which :85-91 turn into
    a std::runtime_error; nothing here catches it *)
Inductive outcome {A : Type} := Undef | Throws | Done (a : A).
Arguments outcome : clear implicits.
Definition bind {A B} (x : outcome A) (f : A -> outcome B) : outcome B := match x with Undef => Undef | Throws => Throws | Done a => f a end.
Definition of_opt {A} (x : option A) : outcome A := match x with Some a => Done a | None => Undef end.

(** containsOnlyWhitespaces /repo/src/stack_dec/JsonTranslationMetadata.h:303-309 *)
Definition containsOnlyWhitespaces (s : str) : bool := forallb (fun c => Ascii.eqb c SP || Ascii.eqb c TAB) s.
(** the loop of isPhraseInSentence :323-325; srcSentVec[start+i] past the end is undefined *)
Fixpoint cmp_loop (sent : list str) (pos : nat) (phrase : list str) : outcome bool :=
  match phrase with
  | [] => Done true
  | w :: r => match nth_error sent pos with
              | None => Undef
              | Some v => if str_eqb v w then cmp_loop sent (pos + 1) r else Done false
              end
  end.
(** isPhraseInSentence :314-327 *)
Definition isPhraseInSentence (sent phrase : list str) (start : nat) : outcome bool :=
  match phrase with
  | [] => Done true
  | _ => if length sent <? start + length phrase - 1 then Done false else cmp_loop sent start phrase
  end.
(** addTranslations :331-360; the loop ends when the sentence or the pairs do; an empty phrase would not move forward, but then a pair is consumed *)
Fixpoint add_loop (fuel : nat) (sent : list str) (sIdx : nat) (trs : list (str * str)) (m : list (seg * list str)) : outcome (list (seg * list str)) :=
  match fuel with
  | 0 => Undef
  | S f =>
      if negb (sIdx <? length sent) then Done m else
      match trs with
      | [] => Done m
      | (o, t) :: rest =>
          bind (of_opt (stringToStringVector o)) (fun srcPhraseVec =>
          bind (of_opt (stringToStringVector t)) (fun trgPhraseVec =>
          bind (isPhraseInSentence sent srcPhraseVec sIdx) (fun b =>
            if b then add_loop f sent (sIdx + length srcPhraseVec) rest (minsert (sIdx + 1, sIdx + length srcPhraseVec) trgPhraseVec m)
            else add_loop f sent (S sIdx) trs m)))
      end
  end.
Definition addTranslations (sent : list str) (trs : list (str * str)) : outcome (list (seg * list str)) :=
  add_loop (1 + length sent + length trs) sent 0 trs [].
(** the loop over the tags :160-188; "translation" is looked up first, and looking up in a value that is no object throws *)
Fixpoint read_tags (ts : list tag) (trs : list (str * str)) : outcome (list (str * str)) :=
  match ts with
  | [] => Done trs
  | Other :: _ => Throws
  | Tag (Some o) (Some t) :: r =>
      read_tags r (if negb (containsOnlyWhitespaces o) && negb (containsOnlyWhitespaces t) then trs ++ [(o, t)] else trs)
  | Tag _ _ :: r => read_tags r trs
  end.
(** obtainTransConstraints :114-210 without the verbose messages: the source words and the constraints *)
Definition obtainJsonConstraints (raw : input) : outcome (list str * list (seg * list str)) :=
  match raw with
  | Empty => Done ([], [])
  | NotJson raw => bind (of_opt (stringToStringVector raw)) (fun v => Done (v, []))
  | Doc title tags =>
      bind (match title with Some s => of_opt (stringToStringVector s) | None => Done [] end) (fun sent =>
      match tags with
      | None => Done (sent, [])
      | Some ts => bind (read_tags ts []) (fun trs => bind (addTranslations sent trs) (fun m => Done (sent, m)))
      end)
  end.
