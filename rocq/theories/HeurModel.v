(** The heuristics of the decoder: src/stack_dec/_pbTransModel.h initHeuristicLocalt 1198-1290 (initHeuristicLocaltd is the same), unkWordScoreHeur 1181-1192,
    getLocalTmHeurScore 1505-1517, getDistortionHeurScore 1521-1538, SrcPosJumpFeat.h:115-158, and the tables of translation options:
    src/nlp_common/NbestTableNode.h and getNbestTransForSrcPhrase _pbTransModel.h:2416-2452.
    Scores are exact integers; [NEG] is -FLT_MAX; unsigned differences by usub.  None: an access outside the table, or an iterator moved before the first element. *)
From Coq Require Import ZArith List Bool Arith.
From Verif Require Import DecSpec DecModel.
Import ListNotations.
Open Scope nat_scope.
(** vectors of vectors *)
Definition get2 (T : list (list Z)) (y x : nat) : option Z := match nth_error T y with Some row => nth_error row x | None => None end.
Definition set2 (T : list (list Z)) (y x : nat) (v : Z) : option (list (list Z)) :=
  match nth_error T y with
  | Some row => match vset x v row with Some row' => vset y row' T | None => None end
  | None => None
  end.
Section Table.
Variable J : nat.                                  (* nsrcSentIdVec.size()-1 *)
Variable A : nat.                                  (* maxSrcPhraseLength *)
Variable nbest : nat -> nat -> list (list nat).    (* getNbestTransForSrcPhraseCached *)
Variable score_ts : nat -> nat -> list nat -> Z.   (* heurDirectPmScoreLt + heurInversePmScoreLt + heurLmScoreLtNoAdmiss *)
Variables unk NEG : Z.                             (* unkWordScoreHeur(), -FLT_MAX *)
(** the loop over z :1277-1284 *)
Fixpoint z_loop (T : list (list Z)) (y x : nat) (zs : list nat) : option (list (list Z)) :=
  match zs with
  | [] => Some T
  | z :: r => match get2 T z x, get2 T y (usub (usub J 2) z), get2 T y x with
              | Some p, Some q, Some v => if (v <? p + q)%Z then match set2 T y x (p + q) with Some T => z_loop T y x r | None => None end else z_loop T y x r
              | _, _, _ => None
              end
  end.
(** the body of the loops over y and x :1221-1286 *)
Definition cell (T : list (list Z)) (y x : nat) : option (list (list Z)) :=
  let r := y + 1 in
  let l := usub J x in
  let ttNode := if A <? usub r l + 1 then [] else nbest l r in
  let best := fold_left (fun b t => if (b <? score_ts l r t)%Z then score_ts l r t else b) ttNode NEG in
  let some := negb (length ttNode =? 0) in
  if x =? usub (usub J y) 1
  then set2 T y x (if some then best else unk)
  else match set2 T y x (if some then best else NEG) with
       | Some T => z_loop T y x (seq (usub (usub J x) 1) (y - usub (usub J x) 1))
       | None => None
       end.
Fixpoint x_loop (T : list (list Z)) (y : nat) (xs : list nat) : option (list (list Z)) :=
  match xs with [] => Some T | x :: r => match cell T y x with Some T => x_loop T y r | None => None end end.
Fixpoint y_loop (T : list (list Z)) (ys : list nat) : option (list (list Z)) :=
  match ys with [] => Some T | y :: r => match x_loop T y (seq (usub (usub J y) 1) (J - usub (usub J y) 1)) with Some T => y_loop T r | None => None end end.
Definition initHeuristicLocalt : option (list (list Z)) := y_loop (repeat (repeat NEG J) J) (seq 0 J).
(** getLocalTmHeurScore *)
Fixpoint gap_sum (T : list (list Z)) (gaps : list seg) (result : Z) : option Z :=
  match gaps with
  | [] => Some result
  | g :: r => match get2 T (usub (snd g) 1) (usub J (fst g)) with Some v => gap_sum T r (result + v) | None => None end
  end.
Definition getLocalTmHeurScore (T : list (list Z)) (h : hypdata) : option Z := gap_sum T (extract_gaps J (getKey (segs h))) 0.
End Table.
(** min_jumps, calcHeurScore: SrcPosJumpFeat.h *)
Fixpoint min_jumps (gaps : list seg) (j : nat) : list nat :=
  match gaps with [] => [] | g :: r => (if fst g <? j then j - fst g else fst g - j) :: min_jumps r (snd g) end.
Definition calcHeurScore (jump : nat -> Z) (gaps : list seg) (last : nat) : Z := fold_left (fun res k => (res + jump k)%Z) (min_jumps gaps last) 0%Z.
(** getDistortionHeurScore with one jump feature: its weight is not used *)
Definition getDistortionHeurScore (J : nat) (jump : nat -> Z) (h : hypdata) : Z := calcHeurScore jump (extract_gaps J (getKey (segs h))) (getLastSrcPosCovered h).
(** NbestTableNode: a multimap in descending order of scores; an element is inserted after those of equal score *)
Fixpoint nb_insert {D} (s : Z) (v : D) (t : list (Z * D)) : list (Z * D) :=
  match t with [] => [(s, v)] | p :: r => if (fst p <? s)%Z then (s, v) :: p :: r else p :: nb_insert s v r end.
(** removeLastElement: the iterator is decremented after the erased element: not allowed if it was the first *)
Definition removeLastElement {D} (t : list (Z * D)) : option (list (Z * D)) := match t with [] | [_] => None | _ => Some (removelast t) end.
Fixpoint prune_loop {D} (fuel : nat) (t : list (Z * D)) (threshold : Z) : option (list (Z * D)) :=
  match t, fuel with
  | [], _ => Some t
  | _, 0 => None
  | p :: _, S fuel => if (fst (last t p) <? threshold)%Z then match removeLastElement t with Some t => prune_loop fuel t threshold | None => None end else Some t
  end.
Definition pruneGivenThreshold {D} (t : list (Z * D)) (threshold : Z) : option (list (Z * D)) := prune_loop (S (length t)) t threshold.
Definition getScoreOfBestElem {D} (t : list (Z * D)) : Z := match t with [] => 0%Z | p :: _ => fst p end.
Fixpoint shrink {D} (fuel : nat) (N : nat) (t : list (Z * D)) : option (list (Z * D)) :=
  match fuel with
  | 0 => Some t
  | S fuel => if N <? length t then match removeLastElement t with Some t => shrink fuel N t | None => None end else Some t
  end.
(** getNbestTransForSrcPhrase, the translations in the order of the set; [N] is the parameter W: at least 1, a number of options (inl), less, a factor of the
    best probability, given by its logarithm (inr) *)
Definition getNbestTransForSrcPhrase (sc : list nat -> Z) (N : nat + Z) (trans : list (list nat)) : option (list (Z * list nat)) :=
  let nbt := fold_left (fun t x => nb_insert (sc x) x t) trans [] in
  match N with
  | inl N => shrink (length nbt) N nbt
  | inr lg => pruneGivenThreshold nbt (getScoreOfBestElem nbt + lg)
  end.
