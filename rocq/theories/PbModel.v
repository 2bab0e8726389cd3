(** The phrase-based decoder as a whole: the search of SearchModel.v (src/stack_dec/_stackDecoder.h) run on the translation model of DecModel.v (hypotheses and
    their expansion, src/stack_dec/_pbTransModel.h:842-908), FeatModel.v (scores, PbTransModel.h:236-292) and HeurModel.v (heuristics).
    A hypothesis is its data with the language model history (PhraseBasedTmHypRec.h); its score is kept by the search. *)
From Coq Require Import ZArith List Bool Arith.
From Verif Require Import DecSpec DecModel FeatSpec FeatModel HeurModel.
Import ListNotations.
Open Scope nat_scope.
Section Pb.
Variable srcSent : list str.
Variable ids : list nat.                       (* nsrcSentIdVec without the NULL word *)
Variables (cm : constraints) (itos : nat -> str) (stoi : str -> nat) (UNK : nat) (UNKS : str) (unseen : str -> bool).
Variable nbest : nat -> nat -> list (list nat).
Variables A U : nat.
Variable feats : list (feature * Z).
Definition pbhyp := (hypdata * list nat)%type.
(** expand _pbTransModel.h:842-908: the extended data, scored by incrScore (:893-897) *)
Definition pbsuccs (h : pbhyp) : list (pbhyp * Z) :=
  match expand srcSent cm itos stoi UNK UNKS unseen nbest A U (fst h) with
  | None => []
  | Some l => flat_map (fun d => match incrScore ids feats (fst h) d {| score := 0; lmHist := snd h |} with
                                 | Some (s, _) => [((d, lmHist s), score s)]
                                 | None => []
                                 end) l
  end.
Definition pbcomplete (h : pbhyp) : bool := isComplete (length srcSent) (fst h).
Definition pbdist (h : pbhyp) : nat := distToNullHyp (length srcSent) (fst h).
(** nullHypothesis *)
Definition pbstart : pbhyp := (nullHypothesisHypData, lmHist (fst (nullHypothesisScrComps feats))).
Definition pbs0 : Z := score (fst (nullHypothesisScrComps feats)).
(** calcHeuristicScore: NO_HEURISTIC (None), or LOCAL_T_HEURISTIC with its table, for given phrase scores, score of an unknown word and -FLT_MAX *)
Definition pbheur (hc : option ((nat -> nat -> list nat -> Z) * Z * Z)) (h : pbhyp) : Z :=
  match hc with
  | None => 0%Z
  | Some (sc, unk, NEG) => match initHeuristicLocalt (length srcSent) A nbest sc unk NEG with
                           | Some T => match getLocalTmHeurScore (length srcSent) T (fst h) with Some v => v | None => 0%Z end
                           | None => 0%Z
                           end
  end.
Definition pbstate (h : pbhyp) : hypstate := getHypState (fst h) {| score := 0; lmHist := snd h |}.
(** the words put in the word graph: getTransInPlainTextVec, words numbered by [num] *)
Definition pbwords (num : str -> nat) (h : pbhyp) : list nat :=
  match getTransInPlainTextVec srcSent cm itos UNKS (fst h) with Some t => map num t | None => [] end.
End Pb.
