(** Vocabulary for the scores of translations: what each feature is worth on a whole (partial) translation, given as the list of translated source
    segments with their phrases. *)
From Coq Require Import ZArith List Bool Arith.
From Verif Require Import DecSpec.
Import ListNotations.
Open Scope nat_scope.
(** the features of a phrase-based model; log-probabilities are exact numbers *)
Inductive feature :=
| FLang (bos : list nat) (lp : list nat -> nat -> Z) (lpend : list nat -> Z) (eos : nat)   (* n-gram model: initial history, log-probability of a word and of the end *)
| FWordPen (wp sumwp : nat -> Z)                                        (* length of the whole translation, of a partial one *)
| FPhrase (sc : list nat -> list nat -> Z)                              (* phrase translation models, direct or inverse *)
| FJump (jump : nat -> Z)                                               (* reordering distance *)
| FSrcLenGap (f : nat -> Z)                                             (* source segment length, uniform *)
| FSrcLen (f : nat -> nat -> Z)                                         (* source segment length given the phrase's, Poisson or geometric *)
| FTrgLen (f : nat -> nat -> Z).                                        (* target segment length *)
(** a history of fixed length, after one more word *)
Definition shift (h : list nat) (w : nat) : list nat := match h with [] => [] | _ :: r => r ++ [w] end.
Definition history (bos : list nat) (ws : list nat) : list nat := fold_left shift ws bos.
(** log-probability of a word sequence from a history *)
Fixpoint lm_score (lp : list nat -> nat -> Z) (h : list nat) (ws : list nat) : Z :=
  match ws with [] => 0%Z | w :: r => (lp h w + lm_score lp (shift h w) r)%Z end.
Definition dist_abs (a b : nat) : nat := (a - b) + (b - a).
Definition all_covered (n : nat) (ss : list seg) : bool := forallb (fun j => existsb (fun s => (fst s <=? j) && (j <=? snd s)) ss) (seq 1 n).
Definition words_of (ps : list (seg * list nat)) : list nat := flat_map snd ps.
Section Total.
Variable src : list nat.
Notation n := (length src).
(** words of a source segment *)
Definition src_phrase (s : seg) : list nat := firstn (seg_len s) (skipn (fst s - 1) src).
(** distance from [left] to the first word after it that was already translated (to the last word of the sentence if there is none) *)
Definition gap_right (done : list seg) (left : nat) : nat :=
  hd n (filter (fun j => existsb (fun s => (fst s <=? j) && (j <=? snd s)) done) (seq (left + 1) (n - left))).
(** the contribution of one more translated segment [p] after [ps] *)
Definition segment_score (f : feature) (ps : list (seg * list nat)) (p : seg * list nat) : Z :=
  match f with
  | FLang _ _ _ _ | FWordPen _ _ => 0%Z
  | FPhrase sc => sc (src_phrase (fst p)) (snd p)
  | FJump jump => jump (dist_abs (fst (fst p)) (match ps with [] => 1 | _ => S (snd (last (map fst ps) (0, 0))) end))
  | FSrcLenGap f => f (gap_right (map fst ps) (fst (fst p)) - fst (fst p) + 1)
  | FSrcLen f => f (seg_len (fst p)) (length (snd p))
  | FTrgLen f => f (length (words_of ps) + length (snd p)) (length (words_of ps))
  end.
Fixpoint segments_score (f : feature) (done todo : list (seg * list nat)) : Z :=
  match todo with [] => 0%Z | p :: r => (segment_score f done p + segments_score f (done ++ [p]) r)%Z end.
(** the contribution of the words as a whole *)
Definition sentence_score (f : feature) (ps : list (seg * list nat)) : Z :=
  let ws := words_of ps in let full := all_covered n (map fst ps) in
  match f with
  | FLang bos lp lpend _ => (lm_score lp bos ws + if full then lpend (history bos ws) else 0)%Z
  | FWordPen wp sumwp => if full then wp (length ws) else sumwp (length ws)
  | _ => 0%Z
  end.
Definition feature_score (f : feature) (ps : list (seg * list nat)) : Z := (segments_score f [] ps + sentence_score f ps)%Z.
(** log-linear combination *)
Fixpoint weighted (fs : list (feature * Z)) (v : feature -> Z) : Z := match fs with [] => 0%Z | (f, w) :: r => (w * v f + weighted r v)%Z end.
Definition model_score (fs : list (feature * Z)) (ps : list (seg * list nat)) : Z := weighted fs (fun f => feature_score f ps).
End Total.
