(** /repo/src/sw_models/IncrIbm2AligModel.cc and IncrIbm2AligTable.cc, with the parts inherited from IncrIbm1AligModel.cc.  Floats and doubles are
    real numbers, numbers in the log domain are LogNum.lg.  The two parameter tables (IncrLexTable keyed by source and target word,
    IncrIbm2AligTable keyed by the aSource record (j,slen,tlen) and source position i) have the same code, written once for any two key types;
    hash maps and vectors of maps are finite maps.  aSourceMask is the empty function (:512-515). *)
From Coq Require Import Reals NArith List Bool.
From Verif Require Import AMap MathModel LogNum Ibm1Spec Ibm2Spec AligSpec AligModel Ibm1Model.
Import ListNotations.
Open Scope R_scope.
Section TABLE.
Context {K1 K2 : Type}.
Variable d1 : forall a b : K1, {a = b} + {a <> b}.
Variable d2 : forall a b : K2, {a = b} + {a <> b}.
Definition pd : forall a b : K1 * K2, {a = b} + {a <> b}.
Proof. intros [a b] [c d]. destruct (d1 a c), (d2 b d); [left; congruence|right; congruence..]. Defined.
(** numerators by (k1,k2), denominators by k1: IncrIbm2AligTable.cc:36-108, IncrLexTable.cc *)
Record ndtab := { ndn : list ((K1 * K2) * lg); ndd : list (K1 * lg) }.
Definition nd_empty : ndtab := {| ndn := []; ndd := [] |}.
Definition getNumer (T : ndtab) (s : K1) (t : K2) : option lg := aget pd (s, t) (ndn T).
Definition getDenom (T : ndtab) (s : K1) : option lg := aget d1 s (ndd T).
Definition setNumDen (T : ndtab) (s : K1) (t : K2) (n d : lg) : ndtab := {| ndn := aset pd (s, t) n (ndn T); ndd := aset d1 s d (ndd T) |}.
(** unsmoothed_logaProb :232-265 and unsmoothed_aProb :223-229; unsmoothed_logpts IncrIbm1AligModel.cc:405-428, pts :385-396 *)
Definition logprob (T : ndtab) (s : K1) (t : K2) : lg :=
  match getNumer T s t with
  | Some n => match getDenom T s with Some d => lgsub n d | None => LZ end
  | None => LZ
  end.
Definition prob (T : ndtab) (s : K1) (t : K2) : R := lgexp (logprob T s t).
(** calc_anji_num_alig :67-92 with ARBITRARY_AP = 0.1 (IncrIbm2AligModel.h:43); calc_anji_num IncrIbm1AligModel.cc:255-275 with ARBITRARY_PTS = 0.1 *)
Definition seen_prob (arbitrary : R) (T : ndtab) (s : K1) (t : K2) : R := match getNumer T s t with Some _ => prob T s t | None => arbitrary end.
(** storing one pair of contributions: fillEmAuxVarsAlig :146-158; fillEmAuxVars IncrIbm1AligModel.cc:313-329 *)
Definition nd_aux := list ((K1 * K2) * (lg * lg)).
Definition add_contrib (k : K1 * K2) (wc wn : lg) (aux : nd_aux) : nd_aux :=
  match aget pd k aux with
  | Some (c, n) => aset pd k ((if lgneqb wc LZ then lgsumlog c wc else c), lgsumlog n wn) aux
  | None => aset pd k (wc, wn) aux
  end.
(** updateParsAlig :169-204 (the auxiliary variables are cleared at the end); updatePars IncrIbm1AligModel.cc:333-372 *)
Definition nd_update_one (T : ndtab) (e : (K1 * K2) * (lg * lg)) : ndtab :=
  let '((s, t), (c, n)) := e in
  if lgneqb c n then
    let numer := match getNumer T s t with Some x => x | None => LZ end in
    let denom := match getDenom T s with Some x => x | None => LZ end in
    let new_numer := obtainLogNewSuffStat numer c n in
    let new_denom := if lgneqb numer LZ then lgsublog denom numer else denom in
    setNumDen T s t new_numer (lgsumlog new_denom new_numer)
  else T.
Definition nd_update (T : ndtab) (aux : nd_aux) : ndtab := fold_left nd_update_one aux T.
End TABLE.
Arguments ndtab : clear implicits.
Arguments nd_aux : clear implicits.
Definition aposdec : forall a b : apos, {a = b} + {a <> b}.
Proof. intros [[a b] c] [[d e] f]. destruct (Nat.eq_dec a d), (Nat.eq_dec b e), (Nat.eq_dec c f); [left; congruence|right; congruence..]. Defined.
Definition ltab := ndtab N N.
Definition atab := ndtab apos nat.
Definition pts2 (L : ltab) (s t : N) : R := prob N.eq_dec N.eq_dec L s t.
(** aProb :207-213 *)
Definition aProb (A : atab) (j slen tlen i : nat) : R := prob aposdec Nat.eq_dec A (j, slen, tlen) i.
Definition ARBITRARY_AP : R := 1 / 10.
Section QUERY.
Variable L : ltab.
Variable A : atab.
Variable slm : nat -> nat -> R.     (* sentLenLgProb: WeightedIncrNormSlm, modelled in SlmModel.v *)
(** lexAligM2LpForBestAlig :473-509: unlike model 1, best_i is reset for every target word *)
Definition best_inner2 (ns : list N) (tlen j : nat) (t : N) : lg * nat :=
  fold_left (fun acc i => let lp := lgadd (lgln (pts2 L (nth i ns 0%N) t)) (lgln (aProb A (j + 1) (pred (length ns)) tlen i)) in
    if lgleb (fst acc) lp then (lp, i) else acc) (seq 0 (length ns)) (Fin (- FLT_MAX), 0%nat).
Definition lexAligM2LpForBestAlig (ns ts : list N) : lg * list nat :=
  fold_left (fun acc j => let '(lp, al) := acc in let '(m, bi) := best_inner2 ns (length ts) j (nth j ts 0%N) in (lgadd lp m, al ++ [bi])) (seq 0 (length ts)) (Fin 0, []).
(** obtainBestAlignment :268-282; no test of the sentence lengths *)
Definition obtainBestAlignment2 (s t : list N) : option (lg * wam) :=
  let '(lp, al) := lexAligM2LpForBestAlig (addNullWord s) t in
  match putAligVec (w_init (length s) (length t)) al with
  | Some M => Some (lgadd (Fin (slm (length s) (length t))) lp, M)
  | None => None
  end.
(** incrIBM2LgProb :317-341: no sentence length probability *)
Definition incrIBM2LgProb (ns t : list N) (al : list nat) : lg :=
  fold_left (fun a j => lgadd (lgadd a (lgln (pts2 L (nth (nth j al 0%nat) ns 0%N) (nth j t 0%N)))) (lgln (aProb A (j + 1) (pred (length ns)) (length t) (nth j al 0%nat))))
    (seq 0 (length al)) (Fin 0).
(** calcLgProbForAlig :285-314; getAligVec clears its result when it fails; THOT_ERROR is the number 1 (ErrorDefs.h) *)
Definition calcLgProbForAlig2 (s t : list N) (M : wam) : lg :=
  let al := match getAligVec M with Some al => al | None => [] end in
  if Nat.eqb (length t) (length al) then incrIBM2LgProb (addNullWord s) t al else Fin 1.
(** calcSumIBM2LgProb :353-391, calcLgProb :344-350 *)
Definition calcLgProb2 (s t : list N) : lg :=
  let ns := addNullWord s in
  lgadd (Fin (slm (pred (length ns)) (length t)))
    (fold_left (fun a j => lgadd a (lgln (fold_left (fun sm i => sm + pts2 L (nth i ns 0%N) (nth j t 0%N) * aProb A (j + 1) (pred (length ns)) (length t) i) (seq 0 (length ns)) 0)))
      (seq 0 (length t)) (Fin 0)).
(** loglikelihoodForPairRange, IncrIbm1AligModel.cc:86-106 *)
Definition loglikelihood2 (D : list pair) : lg :=
  fold_left (fun a p => if sentenceLengthIsOk (src p) && sentenceLengthIsOk (trg p) then lgadd a (calcLgProb2 (src p) (trg p)) else a) D (Fin 0).
(** initPpInfo :394-410, partialProbWithoutLen :413-430; lpFromPpInfo is inherited *)
Definition initPpInfo2 (slen : nat) (t : list N) : list R :=
  map (fun j => 0 + pts2 L 0%N (nth j t 0%N) * aProb A (j + 1) slen (length t) 0) (seq 0 (length t)).
Definition partialProbWithoutLen2 (srcPartialLen slen : nat) (s_ t : list N) (pp : list R) : list R :=
  fold_left (fun pp i => map (fun j => nth j pp 0 + pts2 L (nth i s_ 0%N) (nth j t 0%N) * aProb A (j + 1) slen (length t) (srcPartialLen + i + 1)) (seq 0 (length t)))
    (seq 0 (length s_)) pp.
End QUERY.
(** calc_anji_num :52-62 *)
Definition calc_anji_num2 (L : ltab) (A : atab) (ns ts : list N) (i j : nat) : R :=
  seen_prob N.eq_dec N.eq_dec ARBITRARY_PTS L (nth i ns 0%N) (nth j ts 0%N) * seen_prob aposdec Nat.eq_dec ARBITRARY_AP A (j + 1, pred (length ns), length ts)%nat i.
(** calc_anji, IncrIbm1AligModel.cc:199-233: the new expected values *)
Definition anji_row2 (L : ltab) (A : atab) (ns ts : list N) (j : nat) : list R :=
  let nums := map (fun i => smooth_num (calc_anji_num2 L A ns ts i j)) (seq 0 (length ns)) in
  map (fun d => d / fold_left Rplus nums 0) nums.
Definition anji_aux2 (L : ltab) (A : atab) (ns ts : list N) : list (list R) := map (anji_row2 L A ns ts) (seq 0 (length ts)).
(** fillEmAuxVarsAlig :106-145: no exception for a zero contribution, unlike fillEmAuxVars of model 1 *)
Definition weighted_new_alig (w a : R) : lg := lgln (if Rlt_dec (w * a) SMOOTHING_WEIGHTED_ANJI then SMOOTHING_WEIGHTED_ANJI else w * a).
Record em2 := { ltb : ltab; atb : atab; keep2 : bool; store2 : list (nat * list (list R)) }.
Definition aux2 : Type := (nd_aux N N * nd_aux apos nat)%type.
(** fillEmAuxVars :95-104 at target position j and source position i, counted from 0 (the program's j is counted from 1) *)
Definition fillEmAuxVars2 (w : R) (curr : option R) (new : R) (ns ts : list N) (q : nat * nat) (aux : aux2) : aux2 :=
  (add_contrib N.eq_dec N.eq_dec (nth (snd q) ns 0%N, nth (fst q) ts 0%N) (weighted_curr w curr) (weighted_new w new) (fst aux),
   add_contrib aposdec Nat.eq_dec ((fst q + 1, pred (length ns), length ts)%nat, snd q) (weighted_curr w curr) (weighted_new_alig w new) (snd aux)).
(** calc_anji, IncrIbm1AligModel.cc:234-252 *)
Definition gather2 (w : R) (old : option (list (list R))) (new : list (list R)) (ns ts : list N) (aux : aux2) : aux2 :=
  fold_left (fun aux q => fillEmAuxVars2 w (match old with Some m => Some (cell m (fst q) (snd q)) | None => None end) (cell new (fst q) (snd q)) ns ts q aux)
    (flat_map (fun j => map (fun i => (j, i)) (seq 0 (length ns))) (seq 0 (length ts))) aux.
Definition calc_anji2 (E : em2) (n : nat) (p : pair) (aux : aux2) : em2 * aux2 :=
  let ns := addNullWord (src p) in
  let old := if keep2 E then aget Nat.eq_dec n (store2 E) else None in
  let new := anji_aux2 (ltb E) (atb E) ns (trg p) in
  ({| ltb := ltb E; atb := atb E; keep2 := keep2 E; store2 := if keep2 E then aset Nat.eq_dec n new (store2 E) else store2 E |}, gather2 (weight p) old new ns (trg p) aux).
(** calcNewLocalSuffStats, IncrIbm1AligModel.cc:166-198 *)
Definition calcNewLocalSuffStats2 (D : list pair) (range : list nat) (E : em2) (aux : aux2) : em2 * aux2 :=
  fold_left (fun st n => let p := nth n D no_pair in
    if sentenceLengthIsOk (src p) && sentenceLengthIsOk (trg p) then calc_anji2 (fst st) n p (snd st) else st) range (E, aux).
(** updatePars :161-166 *)
Definition updatePars2 (L : ltab) (A : atab) (aux : aux2) : ltab * atab := (nd_update N.eq_dec N.eq_dec L (fst aux), nd_update aposdec Nat.eq_dec A (snd aux)).
(** trainSentPairRange, IncrIbm1AligModel.cc:52-61; efficientBatchTrainingForRange :36-51 (without the sentence length model, a separate table) *)
Definition trainSentPairRange2 (D : list pair) (range : list nat) (E : em2) : em2 :=
  let '(E', aux) := calcNewLocalSuffStats2 D range E ([], []) in
  let '(L, A) := updatePars2 (ltb E') (atb E') aux in {| ltb := L; atb := A; keep2 := keep2 E'; store2 := store2 E' |}.
Definition expval_maxnsize0 (E : em2) : em2 := {| ltb := ltb E; atb := atb E; keep2 := false; store2 := [] |}.
Definition efficientBatchTrainingForRange2 (D : list pair) (range : list nat) (E : em2) : em2 :=
  let '(E', aux) := calcNewLocalSuffStats2 D range (expval_maxnsize0 E) ([], []) in
  let '(L, A) := updatePars2 nd_empty nd_empty aux in {| ltb := L; atb := A; keep2 := keep2 E'; store2 := store2 E' |}.
Definition em2_new : em2 := {| ltb := nd_empty; atb := nd_empty; keep2 := true; store2 := [] |}.
(** a client session *)
Definition em2_step (x : list pair * em2) (o : em_op) : list pair * em2 :=
  match o with
  | AddPair p => (fst x ++ [p], snd x)
  | Train b e => (fst x, trainSentPairRange2 (fst x) (seq b (S e - b)) (snd x))
  end.
Inductive reached2 : list pair -> em2 -> Prop :=
| r2_session : forall ops, legal 0 ops -> reached2 (fst (fold_left em2_step ops ([], em2_new))) (snd (fold_left em2_step ops ([], em2_new)))
| r2_batch : forall D E b e, reached2 D E -> (e < length D)%nat -> reached2 D (efficientBatchTrainingForRange2 D (range_of b e) E).
