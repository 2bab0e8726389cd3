(** Scoring of hypotheses: PbTransModel::nullHypothesisScrComps and incrScore (src/stack_dec/PbTransModel.h:120-166, 236-292) and the features
    LangModelFeat.cc:30-105, WordPenaltyFeat.cc:30-90, DirectPhraseModelFeat.cc:30-86 (InversePhraseModelFeat.cc is alike), SrcPosJumpFeat.cc:30-64,
    SrcPhraseLenFeat.cc:30-70, TrgPhraseLenFeat.cc:30-72, with _incrNgramLM.h:305-345 (LM states) and phrase_models/TrgSegmLenTable.cc:40-111.
    Words are numbers, the conversions between vocabularies being left out; scores and weights are exact integers; the scores of the underlying models are
    functions given by the feature.  Custom and on-the-fly features are left out.  None: an access outside a vector. *)
From Coq Require Import ZArith List Bool Arith.
From Verif Require Import DecSpec DecModel FeatSpec.
Import ListNotations.
Open Scope nat_scope.
(** PhrScoreInfo.h *)
Record scrinfo := { score : Z; lmHist : list nat }.
Definition add_score (w x : Z) (s : scrinfo) : scrinfo := {| score := (score s + w * x)%Z; lmHist := lmHist s |}.
(** nullHypScore: BasePbTransModelFeature.h, LangModelFeat.cc:30-43, WordPenaltyFeat.cc:30-40; the unweighted score comes second *)
Definition nullHypScore (f : feature) (w : Z) (s : scrinfo) : scrinfo * Z :=
  match f with
  | FLang bos _ _ _ => ({| score := score s; lmHist := bos |}, 0%Z)
  | FWordPen _ sumwp => (add_score w (sumwp 0) s, sumwp 0)
  | _ => (s, 0%Z)
  end.
(** numberOfSrcWordsCovered, in unsigned arithmetic *)
Definition numberOfSrcWordsCovered (h : hypdata) : nat := srcWordsCovered (segs h).
(** target boundaries of segment i (common to the features): first and last position *)
Definition trg_bounds (h : hypdata) (i : nat) : option (nat * nat) :=
  match nth_error (cuts h) i, (if i =? 0 then Some 1 else option_map S (nth_error (cuts h) (i - 1))) with
  | Some r, Some l => Some (l, r) | _, _ => None end.
Definition trg_phrase (h : hypdata) (i : nat) : option (list nat) :=
  match trg_bounds h i with Some (l, r) => slice (ntarget h) l (r + 1 - l) | None => None end.
(** trgPhraseLen, in unsigned arithmetic *)
Definition trg_len (h : hypdata) (i : nat) : option nat :=
  match trg_bounds h i with Some (l, r) => Some (usub (r + 1) l) | None => None end.
(** addNextWordToState, getNgramLgProbGivenState, getLgProbEndGivenState: _incrNgramLM.h:305-345 *)
Definition addNextWordToState (w : nat) (st : list nat) : list nat := match st with [] => [] | _ :: r => r ++ [w] end.
Fixpoint getNgramScoreGivenState (lp : list nat -> nat -> Z) (ws : list nat) (st : list nat) : Z * list nat :=
  match ws with [] => (0%Z, st) | w :: r => let '(x, st') := getNgramScoreGivenState lp r (addNextWordToState w st) in ((lp st w + x)%Z, st') end.
(** trgSegmLenLgProbUniform: TrgSegmLenTable.cc:55-78 *)
Definition nextGapStart (k left trgLen : nat) (ss : list seg) : nat :=
  fold_left (fun nx s => if (left <? fst s) && (fst s <? nx) then fst s else nx) (firstn k ss) trgLen.
Section Features.
Variable src : list nat.                 (* srcSentVec *)
(** srcSent[k-1] for k in srcLeft..srcRight *)
Definition srcPhrase (s : seg) : option (list nat) := if fst s =? 0 then None else slice src (fst s - 1) (snd s + 1 - fst s).
(** the scores of the loop bodies: segment [i] of [h], [tl] target words before it, [st] the LM state *)
Definition iterScore (f : feature) (h : hypdata) (i tl : nat) (st : list nat) : option (Z * nat * list nat) :=
  match nth_error (segs h) i with
  | None => None
  | Some sg =>
      match f with
      | FLang _ lp _ _ => match trg_phrase h i with Some ws => let '(x, st') := getNgramScoreGivenState lp ws st in Some (x, tl, st') | None => None end
      | FWordPen _ sumwp => match trg_len h i with Some l => Some ((sumwp (tl + l)%nat - sumwp tl)%Z, tl + l, st) | None => None end
      | FPhrase sc => match srcPhrase sg, trg_phrase h i with Some a, Some b => Some (sc a b, tl, st) | _, _ => None end
      | FJump jump => match (if 0 <? i then option_map snd (nth_error (segs h) (i - 1)) else Some 0) with
                      | Some e => Some (jump (Z.to_nat (Z.abs (Z.of_nat (fst sg) - (Z.of_nat e + 1)))), tl, st)
                      | None => None end
      | FSrcLenGap f => match trg_len h i with
                        | Some _ => Some (f (usub (nextGapStart i (fst sg) (length src) (segs h)) (fst sg) + 1), tl, st)
                        | None => None end
      | FSrcLen f => match trg_len h i with Some l => Some (f (usub (snd sg + 1) (fst sg)) l, tl, st) | None => None end
      | FTrgLen f => match trg_len h i with Some l => Some (f (tl + l) tl, tl + l, st) | None => None end
      end
  end.
(** the loop over the new segments: indices [is]; accumulates the unweighted and the weighted score *)
Fixpoint ext_iter (f : feature) (w : Z) (h : hypdata) (is : list nat) (tl : nat) (st : list nat) (u : Z) (sc : Z) : option (Z * Z * nat * list nat) :=
  match is with
  | [] => Some (u, sc, tl, st)
  | i :: r => match iterScore f h i tl st with
              | Some (x, tl', st') => ext_iter f w h r tl' st' (u + x) (sc + w * x)
              | None => None
              end
  end.
(** extensionScore *)
Definition extensionScore (f : feature) (w : Z) (s : scrinfo) (pred new : hypdata) : option (scrinfo * Z) :=
  let st := match f with FLang bos _ _ _ => fold_left (fun st x => addNextWordToState x st) (tl (ntarget pred)) bos | _ => lmHist s end in
  match ext_iter f w new (seq (length (segs pred)) (length (segs new) - length (segs pred))) (length (ntarget pred) - 1) st 0 (score s) with
  | None => None
  | Some (u, sc, tl, st) =>
      let full := numberOfSrcWordsCovered new =? length src in
      match f with
      | FLang _ _ lpend eos => let x := if full then lpend st else 0%Z in
          Some ({| score := (sc + w * x)%Z; lmHist := if full then addNextWordToState eos st else st |}, (u + x)%Z)
      | FWordPen wp sumwp => let x := if full then (wp tl - sumwp tl)%Z else 0%Z in Some ({| score := (sc + w * x)%Z; lmHist := st |}, (u + x)%Z)
      | _ => Some ({| score := sc; lmHist := st |}, u)
      end
  end.
Variable feats : list (feature * Z).     (* features with their weights *)
(** nullHypothesisScrComps *)
Definition nullHypothesisScrComps : scrinfo * list Z :=
  fold_left (fun a fw => let '(s, c) := a in let '(s', u) := nullHypScore (fst fw) (snd fw) s in (s', c ++ [u])) feats ({| score := 0; lmHist := [] |}, []).
(** incrScore: the new score information and the score components *)
Fixpoint incr_loop (fs : list (feature * Z)) (pred new : hypdata) (s : scrinfo) : option (scrinfo * list Z) :=
  match fs with
  | [] => Some (s, [])
  | (f, w) :: r => match extensionScore f w s pred new with
                   | None => None
                   | Some (s', u) => match incr_loop r pred new s' with Some (s2, c) => Some (s2, u :: c) | None => None end
                   end
  end.
Definition incrScore (pred new : hypdata) (s : scrinfo) : option (scrinfo * list Z) := incr_loop feats pred new s.
(** the score components printed for a hypothesis: printHyp, _pbTransModel.h:1562-1576 *)
Definition printedComps (h : hypdata) : option (list Z) :=
  let '(s, c0) := nullHypothesisScrComps in
  match incrScore hd_null h s with Some (_, c) => Some (map (fun p => (fst p + snd p)%Z) (combine c0 c)) | None => None end.
End Features.
(** hypothesis states, used to recombine hypotheses: PhraseBasedTmHypRec.h:72-87; they are compared field by field (PhrHypState.cc:30-42) *)
Record hypstate := { hs_lmHist : list nat; hs_trglen : nat; hs_endLast : nat; hs_key : nat -> bool }.
Definition getHypState (h : hypdata) (s : scrinfo) : hypstate :=
  {| hs_lmHist := lmHist s; hs_trglen := length (ntarget h) - 1; hs_endLast := match segs h with [] => 0 | x :: r => snd (last r x) end; hs_key := getKey (segs h) |}.
Definition hypstate_eq (x y : hypstate) : Prop :=
  hs_lmHist x = hs_lmHist y /\ hs_trglen x = hs_trglen y /\ hs_endLast x = hs_endLast y /\ forall j, hs_key x j = hs_key y j.
