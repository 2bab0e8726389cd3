(** /repo/src/sw_models/IncrIbm1AligModel.{h,cc}.  Floats and doubles are real numbers, numbers in the log domain are LogNum.lg.
    Word indices are N; NULL_WORD is 0 (StatModelDefs.h:68).  The lexical table is a pair of finite maps (IncrLexTable, property C29);
    sentence pairs are given as word indices (getSrcSent/getTrgSent look them up in the vocabulary, property C20). *)
From Coq Require Import Reals NArith List Bool.
From Verif Require Import AMap MathModel LogNum Ibm1Spec AligSpec AligModel.
Import ListNotations.
Open Scope R_scope.
Definition pairdec : forall a b : N * N, {a = b} + {a <> b}.
Proof. intros [a b] [c d]. destruct (N.eq_dec a c), (N.eq_dec b d); [left; congruence|right; congruence..]. Defined.
(** IncrLexTable: numerators by (s,t), denominators by s *)
Record lextabR := { tnum : list ((N * N) * lg); tden : list (N * lg) }.
Definition tab_empty : lextabR := {| tnum := []; tden := [] |}.
Definition getLexNumer (T : lextabR) (s t : N) : option lg := aget pairdec (s, t) (tnum T).
Definition getLexDenom (T : lextabR) (s : N) : option lg := aget N.eq_dec s (tden T).
Definition setLexNumDen (T : lextabR) (s t : N) (n d : lg) : lextabR := {| tnum := aset pairdec (s, t) n (tnum T); tden := aset N.eq_dec s d (tden T) |}.
(** IncrIbm1AligModel.h:45-47 *)
Definition ARBITRARY_PTS : R := 1 / 10.
Definition SMOOTHING_ANJI_NUM : R := / 1000000.
Definition SMOOTHING_WEIGHTED_ANJI : R := / 1000000.
(** float.h: FLT_MAX = (2-2^-23)*2^127 *)
Definition FLT_MAX : R := (2 - / 2 ^ 23) * 2 ^ 127.
(** unsmoothed_logpts :405-428, unsmoothed_pts :392-396, pts :385-389 *)
Definition unsmoothed_logpts (T : lextabR) (s t : N) : lg :=
  match getLexNumer T s t with
  | Some n => match getLexDenom T s with Some d => lgsub n d | None => LZ end
  | None => LZ
  end.
Definition pts (T : lextabR) (s t : N) : R := lgexp (unsmoothed_logpts T s t).
(** sentenceLengthIsOk :157-163; SwDefs.h:47 *)
Definition sentenceLengthIsOk (l : list N) : bool := match l with [] => false | _ => Nat.leb (length l) 1024 end.
(** addNullWordToWidxVec, BaseSwAligModel.h:536-545 *)
Definition addNullWord (s : list N) : list N := 0%N :: s.
(** logaProbIbm1 :439-449 *)
Definition logaProbIbm1 (slen tlen : nat) : R := fold_left (fun a _ => a - ln (INR slen + 1)) (seq 0 tlen) 0.
Section QUERY.
Variable T : lextabR.
Variable slm : nat -> nat -> R.     (* sentLenLgProb: WeightedIncrNormSlm, modelled in SlmModel.v *)
(** lexM1LpForBestAlig :466-494: inner loop over the source positions; max_lp starts at -FLT_MAX, best_i is NOT reset between target words *)
Definition best_inner (ns : list N) (t : N) (best_i : nat) : lg * nat :=
  fold_left (fun acc i => let lp := lgln (pts T (nth i ns 0%N) t) in if lgleb (fst acc) lp then (lp, i) else acc) (seq 0 (length ns)) (Fin (- FLT_MAX), best_i).
Definition lexM1LpForBestAlig (ns ts : list N) : lg * list nat :=
  let r := fold_left (fun acc t => let '(lp, bi, al) := acc in let '(m, bi') := best_inner ns t bi in (lgadd lp m, bi', al ++ [bi'])) ts (Fin 0, 0%nat, []) in
  (fst (fst r), snd r).
(** obtainBestAlignment :514-539; putAligVec outside the matrix: None *)
Definition obtainBestAlignment (s t : list N) : option (lg * wam) :=
  if sentenceLengthIsOk s && sentenceLengthIsOk t then
    let '(lp, al) := lexM1LpForBestAlig (addNullWord s) t in
    match putAligVec (w_init (length s) (length t)) al with
    | Some M => Some (lgadd (Fin (logaProbIbm1 (length s) (length t) + slm (length s) (length t))) lp, M)
    | None => None
    end
  else Some (LZ, w_init (length s) (length t)).
(** incrIBM1LgProb :573-600 *)
Definition incrIBM1LgProb (ns t : list N) (al : list nat) : lg :=
  fold_left (fun a q => lgadd a (lgln (pts T (nth (fst q) ns 0%N) (snd q)))) (combine al t)
    (Fin (logaProbIbm1 (pred (length ns)) (length t) + slm (pred (length ns)) (length t))).
(** calcLgProbForAlig :542-570; getAligVec clears its result when it fails; THOT_ERROR is the number 1 (ErrorDefs.h) *)
Definition calcLgProbForAlig (s t : list N) (M : wam) : lg :=
  let al := match getAligVec M with Some al => al | None => [] end in
  if Nat.eqb (length t) (length al) then incrIBM1LgProb (addNullWord s) t al else Fin 1.
(** calcSumIBM1LgProb :644-681, calcLgProb :603-615 *)
Definition calcSumIBM1LgProb (ns t : list N) : lg :=
  lgadd (Fin (logaProbIbm1 (pred (length ns)) (length t) + slm (pred (length ns)) (length t)))
    (fold_left (fun a w => lgadd a (lgln (fold_left (fun sm s => sm + pts T s w) ns 0))) t (Fin 0)).
Definition calcLgProb (s t : list N) : lg := if sentenceLengthIsOk s && sentenceLengthIsOk t then calcSumIBM1LgProb (addNullWord s) t else LZ.
(** loglikelihoodForPairRange :86-106 *)
Definition loglikelihood (D : list pair) : lg :=
  fold_left (fun a p => if sentenceLengthIsOk (src p) && sentenceLengthIsOk (trg p) then lgadd a (calcLgProb (src p) (trg p)) else a) D (Fin 0).
(** initPpInfo :684-699, partialProbWithoutLen :702-715, lpFromPpInfo :718-727: probability of a target sentence by adding source words step by step *)
Definition initPpInfo (slen : nat) (t : list N) : list R := map (fun w => 0 + pts T 0%N w * (1 / (INR slen + 1))) t.
Definition partialProbWithoutLen (slen : nat) (s_ t : list N) (pp : list R) : list R :=
  fold_left (fun pp s => map (fun q => fst q + pts T s (snd q) * (1 / (INR slen + 1))) (combine pp t)) s_ pp.
Definition lpFromPpInfo (pp : list R) : lg := fold_left (fun a x => lgadd a (lgln x)) pp (Fin 0).
End QUERY.
(** calc_anji_num :255-275 *)
Definition calc_anji_num (T : lextabR) (s t : N) : R := match getLexNumer T s t with Some _ => pts T s t | None => ARBITRARY_PTS end.
(** the new expected values of one target word, calc_anji :212-233 *)
Definition smooth_num (d : R) : R := if Rlt_dec d SMOOTHING_ANJI_NUM then SMOOTHING_ANJI_NUM else d.
Definition anji_row (T : lextabR) (ns : list N) (t : N) : list R :=
  let nums := map (fun s => smooth_num (calc_anji_num T s t)) ns in
  map (fun d => d / fold_left Rplus nums 0) nums.
Definition anji_aux (T : lextabR) (ns ts : list N) : list (list R) := map (anji_row T ns) ts.
(** fillEmAuxVars :278-330; curr: None is INVALID_ANJI_VAL *)
Definition auxvar := list ((N * N) * (lg * lg)).
Definition weighted_curr (w : R) (curr : option R) : lg :=
  match curr with None => LZ | Some a => lgln (if Rlt_dec (w * a) SMOOTHING_WEIGHTED_ANJI then SMOOTHING_WEIGHTED_ANJI else w * a) end.
Definition weighted_new (w a : R) : lg :=
  lgln (if Req_EM_T (w * a) 0 then w * a else if Rlt_dec (w * a) SMOOTHING_WEIGHTED_ANJI then SMOOTHING_WEIGHTED_ANJI else w * a).
Definition fillEmAuxVars (w : R) (curr : option R) (new : R) (s t : N) (aux : auxvar) : auxvar :=
  let wc := weighted_curr w curr in
  let wn := weighted_new w new in
  match aget pairdec (s, t) aux with
  | Some (c, n) => aset pairdec (s, t) ((if lgneqb wc LZ then lgsumlog c wc else c), lgsumlog n wn) aux
  | None => aset pairdec (s, t) (wc, wn) aux
  end.
(** calc_anji :199-252.  The stored matrix of expected values (anjiMatrix, property C41) is a map from sentence numbers to matrices;
    keep=false is anji_maxnsize=0; other bounds are not modelled here.  j and i are counted from 0. *)
Definition cell (m : list (list R)) (j i : nat) : R := nth i (nth j m []) 0.
Definition gather (w : R) (old : option (list (list R))) (new : list (list R)) (ns ts : list N) (aux : auxvar) : auxvar :=
  fold_left (fun aux q => fillEmAuxVars w (match old with Some m => Some (cell m (fst q) (snd q)) | None => None end) (cell new (fst q) (snd q))
                            (nth (snd q) ns 0%N) (nth (fst q) ts 0%N) aux)
    (flat_map (fun j => map (fun i => (j, i)) (seq 0 (length ns))) (seq 0 (length ts))) aux.
Record em := { tab : lextabR; keep : bool; store : list (nat * list (list R)) }.
Definition calc_anji (E : em) (n : nat) (p : pair) (aux : auxvar) : em * auxvar :=
  let ns := addNullWord (src p) in
  let old := if keep E then aget Nat.eq_dec n (store E) else None in
  let new := anji_aux (tab E) ns (trg p) in
  ({| tab := tab E; keep := keep E; store := if keep E then aset Nat.eq_dec n new (store E) else store E |}, gather (weight p) old new ns (trg p) aux).
(** calcNewLocalSuffStats :166-198; getSrcSent(n) beyond the corpus is not modelled: the range must lie inside *)
Definition calcNewLocalSuffStats (D : list pair) (range : list nat) (E : em) (aux : auxvar) : em * auxvar :=
  fold_left (fun st n => let p := nth n D no_pair in
    if sentenceLengthIsOk (src p) && sentenceLengthIsOk (trg p) then calc_anji (fst st) n p (snd st) else st) range (E, aux).
(** obtainLogNewSuffStat :375-382, updatePars :333-372 (the order of the entries is that of first insertion, not of the word indices) *)
Definition obtainLogNewSuffStat (cur lcur lnew : lg) : lg := lgsumlog (lgsublog cur lcur) lnew.
Definition update_one (T : lextabR) (e : (N * N) * (lg * lg)) : lextabR :=
  let '((s, t), (c, n)) := e in
  if lgneqb c n then
    let numer := match getLexNumer T s t with Some x => x | None => LZ end in
    let denom := match getLexDenom T s with Some x => x | None => LZ end in
    let new_numer := obtainLogNewSuffStat numer c n in
    let new_denom := if lgneqb numer LZ then lgsublog denom numer else denom in
    setLexNumDen T s t new_numer (lgsumlog new_denom new_numer)
  else T.
Definition updatePars (T : lextabR) (aux : auxvar) : lextabR := fold_left update_one aux T.
(** trainSentPairRange :52-61 and efficientBatchTrainingForRange :70-83 (without the sentence length model, a separate table) *)
Definition trainSentPairRange (D : list pair) (range : list nat) (E : em) : em :=
  let '(E', aux) := calcNewLocalSuffStats D range E [] in {| tab := updatePars (tab E') aux; keep := keep E'; store := store E' |}.
Definition set_expval_maxnsize0 (E : em) : em := {| tab := tab E; keep := false; store := [] |}.
Definition efficientBatchTrainingForRange (D : list pair) (range : list nat) (E : em) : em :=
  let '(E', aux) := calcNewLocalSuffStats D range (set_expval_maxnsize0 E) [] in {| tab := updatePars tab_empty aux; keep := keep E'; store := store E' |}.
Definition em_new : em := {| tab := tab_empty; keep := true; store := [] |}.

(** a client session: addSentPair (IncrIbm1AligModel.h, addSentPair of LightSentenceHandler, property C19) and trainSentPairRange over first..second *)
Definition em_step (x : list pair * em) (o : em_op) : list pair * em :=
  match o with
  | AddPair p => (fst x ++ [p], snd x)
  | Train b e => (fst x, trainSentPairRange (fst x) (seq b (S e - b)) (snd x))
  end.
(** states a client can reach: a session of additions and incremental training, followed by rounds of batch training *)
Inductive reached : list pair -> em -> Prop :=
| r_session : forall ops, legal 0 ops -> reached (fst (fold_left em_step ops ([], em_new))) (snd (fold_left em_step ops ([], em_new)))
| r_batch : forall D E b e, reached D E -> (e < length D)%nat -> reached D (efficientBatchTrainingForRange D (range_of b e) E).
