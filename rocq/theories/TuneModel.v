(** Queries to the features of a phrase-based model and tuning of interpolation weights:
    src/stack_dec/LangModelFeat.h, _pbTransModel.h (language-model heuristics), DirectPhraseModelFeat.h, InversePhraseModelFeat.h,
    WeightUpdateUtils.cc, src/incr_models/_incrJelMerNgramLM.h (weights).
    Scores of language models are exact integers (as in FeatModel), interpolation is over the reals (LogNum), tuning over exact rationals (DhsModel). *)
From Coq Require Import Ascii String Reals ZArith QArith List Bool Arith.
From Verif Require Import TextSpec GfmtModel DecSpec DecModel FeatSpec FeatModel MathModel LogNum DhsSpec DhsModel TrieModel.
Import ListNotations.
Local Open Scope nat_scope.

(** a language model feature with its weight: history at the beginning of a sentence, log-probability of a word and of the end *)
Record lmf := mklmf { l_bos : list nat; l_lp : list nat -> nat -> Z; l_end : list nat -> Z; l_w : Z }.
(** scoreTrgSentence: LangModelFeat.h:159-187; [fin] is finalScr, [cum] cumulativeScoreVec *)
Fixpoint sts_loop (f : lmf) (ws : list nat) (st : list nat) (fin : Z) (cum : list Z) : Z * list Z :=
  match ws with
  | [] => let fin := (fin + l_end f st)%Z in (fin, cum ++ [fin])
  | w :: r => let '(x, st') := getNgramScoreGivenState (l_lp f) [w] st in
              let fin := (fin + l_w f * x)%Z in sts_loop f r st' fin (cum ++ [fin])
  end.
Definition scoreTrgSentence (f : lmf) (ws : list nat) : Z * list Z := sts_loop f ws (l_bos f) 0%Z [].
(** scorePhrasePairUnweighted: LangModelFeat.h:147-155; getStateForWordSeq of no words gives an empty history, the model's [l_lp] takes it as it is *)
Definition lmScorePhrase (f : lmf) (ws : list nat) : Z := fst (getNgramScoreGivenState (l_lp f) ws []).
(** calcRefLmHeurScore: _pbTransModel.h:1400-1431; the loop that adds the vector of a feature *)
Fixpoint merge (acc cum : list Z) : list Z :=
  match acc, cum with [], _ => cum | _, [] => acc | a :: acc', c :: cum' => (a + c)%Z :: merge acc' cum' end.
Definition heur_vec (fs : list lmf) (sent : list nat) : list Z := fold_left (fun acc f => merge acc (snd (scoreTrgSentence f sent))) fs [].
(** refHeurLmLgProb after the call, and the value; None: back() of an empty vector or an access outside it *)
Definition fill (fs : list lmf) (sent : list nat) (v : list Z) : list Z := match v with [] => heur_vec fs sent | _ => v end.
Definition heur_value (v : list Z) (len : nat) : option Z :=
  match v with
  | [] => None
  | _ => match len with O => Some (last v 0%Z) | S k => match nth_error v k with Some x => Some (last v 0%Z - x)%Z | None => None end end
  end.
Definition calcRefLmHeurScore (fs : list lmf) (ref : list nat) (len : nat) (v : list Z) : list Z * option Z :=
  let v := fill fs ref v in (v, heur_value v len).
(** calcPrefLmHeurScore: _pbTransModel.h:1434-1468; nprefSentIdVec has one element more than prefSentVec *)
Definition calcPrefLmHeurScore (fs : list lmf) (pref : list nat) (len : nat) (v : list Z) : list Z * option Z :=
  let v := fill fs pref v in (v, if length pref <=? len then Some 0%Z else heur_value v len).

(** getBestSuffixGivenHist: LangModelFeat.h:198-243.  [sw] is stringToWordIndex; hist is given in words; maxlp starts at -FLT_MAX *)
Definition FLT_MAX : Z := (2 ^ 128 - 2 ^ 104)%Z.
Fixpoint best_loop (f : lmf) (sw : str -> nat) (st : list nat) (input : str) (l : list (nat * str)) (best : nat * str) (maxlp : Z) : nat * str :=
  match l with
  | [] => best
  | (n, s) :: r => let lp := l_lp f st (sw (input ++ s)) in
                   if (maxlp <? lp)%Z then best_loop f sw st input r (n, s) lp else best_loop f sw st input r best maxlp
  end.
Definition getBestSuffixGivenHist (f : lmf) (sw : str -> nat) (p : predictor) (hist : list str) (input : str) : option (nat * str) :=
  match getSuffixList p input with
  | None => None
  | Some [] => Some (0, [])
  | Some l => let st := fold_left (fun st h => addNextWordToState (sw h) st) hist (l_bos f) in
              Some (best_loop f sw st input l (0, []) (- FLT_MAX)%Z)
  end.

(** directPhrTransUnweightedScore: DirectPhraseModelFeat.h:230-247, and inversePhrTransUnweightedScore: InversePhraseModelFeat.h:210-228.
    [lpm] is logps_t_(trg,src) (logpt_s_(trg,src)), [lsw] is swLgProb; PhraseDefs.h:43 PHRASE_PROB_SMOOTH, BasePbTransModelFeature.h:43 FEAT_LGPROB_SMOOTH *)
Definition PHRASE_PROB_SMOOTH : R := (/ 10000000000)%R.
Definition FEAT_LGPROB_SMOOTH : R := (Ropp 9999999)%R.
Definition interpScore (lambda : R) (lpm lsw : lg) : lg :=
  if Req_EM_T lambda 1 then lpm
  else let sum1 := lgadd (lgln lambda) lpm in
       let sum1 := if lgleb sum1 (Fin (ln PHRASE_PROB_SMOOTH)) then Fin FEAT_LGPROB_SMOOTH else sum1 in
       lgsumlog sum1 (lgadd (lgln (1 - lambda)) lsw).

(** phraseModelPerplexity: WeightUpdateUtils.cc:264-296; [direct] and [inverse] are scorePhrasePairUnweighted; None: 0/0 *)
Definition phraseModelPerplexity {P} (direct inverse : P -> Q) (pairs : list (list P)) : option Q :=
  let n := fold_left (fun n l => n + length l) pairs 0 in
  let ll := fold_left (fun a l => fold_left (fun a p => (a + (direct p + inverse p))%Q) l a) pairs 0%Q in
  if n =? 0 then None else Some (- (1) * (ll / inject_Z (Z.of_nat n)))%Q.
(** new_dhs_eval: _incrJelMerNgramLM.h:254-294, linInterpWeightsDhsEval: WeightUpdateUtils.cc:220-261; None: THOT_ERROR.
    DBL_MAX when a weight is not in [0,1) *)
Definition DBL_MAX : Q := inject_Z ((2 ^ 53 - 1) * 2 ^ 971).
Definition weights_ok (w : point) : bool := forallb (fun v => Qle_bool 0 v && negb (Qle_bool 1 v)) w.
Definition dhs_eval (perp : point -> option Q) (w : point) : option Q := if weights_ok w then perp w else Some DBL_MAX.
(** the value as it is written with %g to the temporary file and read by the minimizer *)
Definition written (v : Q) : Q := match atofq (fmt_g v) with Some y => y | None => 0%Q end.
(** updateModelWeights: _incrJelMerNgramLM.h:171-252, updatePmLinInterpWeights: WeightUpdateUtils.cc:112-217 (PhrLocalSwLiTm.cc:95-190 is alike):
    result (true: THOT_OK) and final weights.  [tool]: step_by_step_simplex from the initial weights, on the values in the file *)
Fixpoint tune_loop (fuel : nat) (tool : list Q -> answer) (perp : point -> option Q) (init : point) (images : list Q) : option (bool * point) :=
  match fuel with
  | O => None
  | S f => match tool images with
           | Result x _ true => Some (true, x)
           | Result _ _ false => Some (false, init)
           | Evaluate x => match dhs_eval perp x with None => Some (false, init) | Some v => tune_loop f tool perp init (images ++ [written v]) end
           end
  end.
Definition updateWeights (fuel max_it : nat) (ftol pn qn : Q) (perp : point -> option Q) (init : point) : option (bool * point) :=
  tune_loop fuel (step_by_step_simplex max_it (length init) ftol pn qn init) perp init [].
