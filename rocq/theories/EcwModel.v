(** src/error_correction/PfsmEcmForWg.cc, WgProcessorForAnlp.h and the incremental functions of EditDistForVecString.cc:
    correction of a word graph given a prefix, processed incrementally from one prefix to the next.
    Scores and weights are exact integers.  A state or arc is its index; the list of arcs holds the arcs that are not
    pruned, in their order (pruned arcs are skipped by every loop).  Vectors indexed by state or arc are functions
    (initVars :1268-1330 allocates one element per state and arc).  SMALL_SCORE is [None], below every score.
    The predecessor operations kept for states (EcmScoreInfo::opIdVec of ecmScrInfoForState) are never read and omitted. *)
From Coq Require Import Ascii String Arith ZArith List Bool.
From Verif Require Import EditDistSpec EditDistModel TextSpec TextModel EcModel.
Import ListNotations.
Open Scope Z_scope.

Record warc := mkarc { a_pred : nat; a_succ : nat; a_words : list str; a_score : Z }.
Record esi := mkesi { scrVec : list Z; opIdVec : list eop }.

Section ECW.
Variables hc ic sc dc : Z.

(** incrEditDistPrefixFirstRow: EditDistForVecString.cc:150-165 *)
Fixpoint incrFirstRow (incr_y : list str) (row : list Z) : list Z :=
  match incr_y with
  | [] => row
  | w :: y' => incrFirstRow y' (row ++ [match row with [] => insertionCost ic w | _ => last row 0 + insertionCost ic w end])
  end.

(** incrEditDistPrefixCached: :188-273; [None] if incr_y is empty (incr_y[size-1]) or the vectors do not fit *)
Definition set_nth (n : nat) (v : Z) (l : list Z) : list Z := firstn n l ++ v :: skipn (S n) l.
Definition pad (n : nat) (l : list Z) : list Z := l ++ repeat 0 (n - length l).
Definition incrWords (prevLen : nat) (incr_y : list str) : list str :=
  repeat [] (prevLen - 1 - length incr_y) ++ pref_words incr_y.
Fixpoint incr_loop (complete : bool) (w : str) (yVec : list str) (prev : list Z) (js : list nat) (new : list Z) (ops : list eop) : list Z * list eop :=
  match js with
  | [] => (new, ops)
  | j :: js' =>
      let dm : dmat := fun i j => nth j (match i with O => prev | _ => new end) 0 in
      let r := wcell hc ic sc dc complete false [w] yVec dm 1 j in
      incr_loop complete w yVec prev js' (set_nth j (c_score r) new) (ops ++ [c_op r])
  end.
Definition incrEditDistPrefix (w : str) (incr_y : list str) (prev new : list Z) : option (list Z * list eop) :=
  match incr_y with
  | [] => None
  | _ => if (length prev <? length incr_y + 1)%nat then None
         else Some (incr_loop (pref_complete incr_y) w (incrWords (length prev) incr_y) prev
                              (seq (length prev - length incr_y) (length incr_y)) (pad (length prev) new) [])
  end.

(** constructInitEsi, constructEsi: PfsmEcmForWg.cc:44-76; the distance of two empty sentences is 0, that of one word and
    the empty sentence is its deletion cost *)
Definition constructInitEsi : esi := mkesi [0] [].
Definition constructEsi (prev : list Z) (w : str) : option esi :=
  match prev with [] => None | z :: _ => Some (mkesi [z + deletionCost dc w] [NONE_OP]) end.
(** extendEsi: :90-107 *)
Definition extendEsi (diff : list str) (prev : list Z) (w : str) (new : esi) : option esi :=
  match incrEditDistPrefix w diff prev (scrVec new) with
  | Some (row, ops) => Some (mkesi row (opIdVec new ++ ops))
  | None => None
  end.
(** removeLastPosFromEsi: :181-196 *)
Definition pop1 {A} (l : list A) : list A := if (1 <? length l)%nat then removelast l else l.
Definition removeLastPosFromEsi (e : esi) : esi := mkesi (pop1 (scrVec e)) (pop1 (opIdVec e)).

(** obtainLastInsPrefWordVecFromEsi: :120-152, entry j (the loop writes every entry independently); [None]: no such entry *)
Fixpoint skip_ins (ops : list eop) (j : nat) : nat :=   (* while(j>=0 && op[j]==INS) --j; position 0 is never INS *)
  match nth j ops NONE_OP with INS_OP => match j with O => O | S j' => skip_ins ops j' end | _ => j end.
Definition lastInsPref (ops : list eop) (j : nat) : option nat :=
  match nth_error ops j with
  | None => None
  | Some HIT_OP | Some SUBST_OP => Some (j - 1)%nat
  | Some DEL_OP => Some j
  | Some INS_OP => let k := skip_ins ops j in
                   match nth k ops NONE_OP with HIT_OP | SUBST_OP => Some (k - 1)%nat | _ => Some k end
  | Some _ => Some O
  end.

Variables ecmW wgW : Z.
Variable G : list warc.
Variable s0 : Z.                 (* getInitialStateScore *)

Record wgp := mkwgp {
  esiS : nat -> list Z;                (* ecmScrInfoForState (scores) *)
  esiA : nat -> list esi;              (* ecmScrInfoForArcVec *)
  wgS : nat -> option Z;               (* wgScoreForState; [None]: not yet set (uninitialised) *)
  bestS : nat -> list (option Z);      (* bestScoresForState *)
  predS : nat -> list (option nat)     (* bestPredsForState *)
}.
Definition upd {A} (f : nat -> A) (k : nat) (v : A) : nat -> A := fun i => if Nat.eqb i k then v else f i.

(** updateBestScoresForInitState: WgProcessorForAnlp.h:742-767 *)
Definition updateBestInit (st : wgp) : wgp :=
  let row := esiS st 0 in
  mkwgp (esiS st) (esiA st) (upd (wgS st) 0 (Some s0))
        (upd (bestS st) 0 (map (fun z => Some (ecmW * (- z) + wgW * s0)) row))
        (upd (predS st) 0 (map (fun _ => None) row)).

Definition ltS (a : option Z) (b : Z) : bool := match a with None => true | Some z => z <? b end.
Definition set_at {A} (n : nat) (v : A) (l : list A) : list A := firstn n l ++ v :: skipn (S n) l.
(** one position of the loop of updateBestScoresForState (:806-818) with the update of that position in updateEsiPositions
    (PfsmEcmForWg.cc:155-175) *)
Definition best_pos (a : nat) (row : list Z) (wg : Z) (acc : list (option Z) * list (option nat) * list Z) (i : nat) :=
  let '(best, pred, srow) := acc in
  let z := nth i row 0 in
  let ns := ecmW * (- z) + wgW * wg in
  if ltS (nth i best None) ns then (set_at i (Some ns) best, set_at i (Some a) pred, set_nth i z srow) else acc.
(** updateBestScoresForState: :770-832 *)
Definition updateBestState (st : wgp) (a : nat) (arc : warc) (diffSize : nat) : option wgp :=
  let row := match esiA st a with [] => esiS st (a_pred arc) | l => scrVec (last l (mkesi [] [])) end in
  match wgS st (a_pred arc) with
  | None => None
  | Some w0 =>
    let wg := w0 + a_score arc in
    let s := a_succ arc in
    let best := bestS st s ++ repeat None (length row - length (bestS st s)) in
    let pred := predS st s ++ repeat None (length row - length (bestS st s)) in
    let start := match diffSize with O => O | _ => (length best - diffSize)%nat end in
    let '(best', pred', srow') := fold_left (best_pos a row wg) (seq start (length best - start)) (best, pred, pad (length row) (esiS st s)) in
    Some (mkwgp (upd (esiS st) s srow') (esiA st) (upd (wgS st) s (Some wg)) (upd (bestS st) s best') (upd (predS st) s pred'))
  end.

(** initEcmScoreInfoForArc: :435-460, updateEcmScoreInfoForArc: :707-739; [f] is constructEsi or extendEsi *)
Fixpoint arc_words (f : list Z -> str -> esi -> option esi) (prev : list Z) (ws : list str) (es : list esi) : option (list esi) :=
  match ws with
  | [] => Some []
  | w :: ws' => match f prev w (hd (mkesi [] []) es) with
                | None => None
                | Some e => match arc_words f (scrVec e) ws' (tl es) with None => None | Some l => Some (e :: l) end
                end
  end.
Definition proc_arc (f : list Z -> str -> esi -> option esi) (diffSize : nat) (a : nat) (arc : warc) (st : wgp) : option wgp :=
  match arc_words f (esiS st (a_pred arc)) (a_words arc) (esiA st a) with
  | None => None
  | Some es => updateBestState (mkwgp (esiS st) (upd (esiA st) a es) (wgS st) (bestS st) (predS st)) a arc diffSize
  end.
Fixpoint proc_arcs (f : list Z -> str -> esi -> option esi) (diffSize : nat) (a : nat) (arcs : list warc) (st : wgp) : option wgp :=
  match arcs with
  | [] => Some st
  | arc :: arcs' => match proc_arc f diffSize a arc st with None => None | Some st' => proc_arcs f diffSize (S a) arcs' st' end
  end.

(** initVars: :1268-1330 with initWgpInfoForInitState and initWgpInfoForArcs: :388-432 *)
Definition wgp0 : wgp := mkwgp (fun _ => []) (fun _ => []) (fun _ => None) (fun _ => []) (fun _ => []).
Definition initVars : option wgp :=
  let st := mkwgp (upd (esiS wgp0) 0 (scrVec constructInitEsi)) (esiA wgp0) (wgS wgp0) (bestS wgp0) (predS wgp0) in
  proc_arcs (fun prev w _ => constructEsi prev w) 0 0 G (updateBestInit st).

(** getValidProcPrefixVec, getPrefixDiffVec: :463-501; there is no break at the first difference *)
Fixpoint validPrefix (prev new : list str) : list str :=
  match prev, new with
  | a :: prev', b :: new' => if str_eqb a b then a :: validPrefix prev' new' else validPrefix prev' new'
  | _, _ => []
  end.
Definition prefixDiff (valid new : list str) : list str := skipn (length valid) new.

(** updateSizeOfVars: :1354-1390; shrinking a state that is in no arc is harmless, its vectors are empty or unused *)
Definition iter_n {A} (n : nat) (f : A -> A) (x : A) : A := Nat.iter n f x.
Definition shrink (d : nat) (st : wgp) : wgp :=
  mkwgp (fun s => iter_n d pop1 (esiS st s)) (fun a => map (iter_n d removeLastPosFromEsi) (esiA st a)) (wgS st)
        (fun s => iter_n d (@removelast _) (bestS st s)) (fun s => iter_n d (@removelast _) (predS st s)).

(** procWgGivenPrefDiff: :504-541, extendInitialEsi: PfsmEcmForWg.cc:79-87 *)
Definition procDiff (diff : list str) (st : wgp) : option wgp :=
  match diff with
  | [] => Some st
  | _ => let st1 := mkwgp (upd (esiS st) 0 (incrFirstRow diff (esiS st 0))) (esiA st) (wgS st) (bestS st) (predS st) in
         proc_arcs (extendEsi diff) (length diff) 0 G (updateBestInit st1)
  end.
(** the scoring part of correct: :321-360; [prev] is previousPrefixVec *)
Definition procPrefix (st : wgp) (prev p : list str) : option wgp :=
  let valid := validPrefix prev p in
  procDiff (prefixDiff valid p) (shrink (length prev - length valid) st).

(** the prefixes handed over by the user one after the other *)
Fixpoint procHistory (st : wgp) (prev : list str) (ps : list (list str)) : option wgp :=
  match ps with
  | [] => Some st
  | p :: ps' => match procPrefix st prev p with None => None | Some st' => procHistory st' p ps' end
  end.
Definition run (ps : list (list str)) : option wgp :=
  match initVars with None => None | Some st => procHistory st [] ps end.

(** obtainBestUncorrPrefHypState: :913-964.  [fuel] bounds the number of arcs followed. *)
Fixpoint back_words (es : list esi) (m : nat) (pos : nat) : option nat :=
  match m with
  | O => Some pos
  | S m' => match nth_error es m' with
            | None => None
            | Some e => match lastInsPref (opIdVec e) pos with None => None | Some pos' => back_words es m' pos' end
            end
  end.
Fixpoint bestUncorr (st : wgp) (fuel s pos : nat) : option (list str) :=
  match s with
  | O => Some []
  | _ => match fuel with
         | O => None
         | S f => match nth pos (predS st s) None with
                  | None => None
                  | Some a => match nth_error G a with
                              | None => None
                              | Some arc => match back_words (esiA st a) (length (a_words arc)) pos with
                                            | None => None
                                            | Some pos' => match bestUncorr st f (a_pred arc) pos' with
                                                           | None => None
                                                           | Some ws => Some (ws ++ a_words arc)
                                                           end
                                            end
                              end
                  end
         end
  end.
End ECW.
