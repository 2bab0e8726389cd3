(** src/error_correction/WgProcessorForAnlp.h:543-705,867-911,967-1200: the n-best list of corrections for a word graph and a prefix.
    Scores are exact integers (the code rounds them to float); [rest] are the scores of the best completions (restScores),
    [suffix] the words of the best path from a state to a final state (bestPathFromFinalStateToIdx, see C57) avoiding the excluded
    arcs.  [None]: undefined behaviour. *)
From Coq Require Import Ascii String Arith ZArith List Bool.
From Verif Require Import EditDistSpec EditDistModel TextSpec TextModel EcModel EcwModel.
Import ListNotations.
Open Scope Z_scope.

(** insertion into a multimap with decreasing keys *)
Fixpoint mm_insert {A} (s : Z) (v : A) (t : list (Z * A)) : list (Z * A) :=
  match t with [] => [(s, v)] | p :: r => if fst p <? s then (s, v) :: p :: r else p :: mm_insert s v r end.
(** removeLastFromNbestHypStates :1202, removeLastFromNbestHypSubStates :1216, removeLastFromNbestCorrs :1230: erase(pos--) is undefined if the element is the first *)
Definition removeLastFrom {A} (t : list (Z * A)) : option (list (Z * A)) := match t with [] => Some [] | [_] => None | _ => Some (removelast t) end.
Definition nb_add {A} (n : nat) (t : option (list (Z * A))) (c : Z * A) : option (list (Z * A)) :=
  match t with
  | None => None
  | Some t => let t' := mm_insert (fst c) (snd c) t in if (n <? length t')%nat then removeLastFrom t' else Some t'
  end.
Definition nb_all {A} (n : nat) (cs : list (Z * A)) (t : option (list (Z * A))) : option (list (Z * A)) := fold_left (nb_add n) cs t.

(** wordSatisfiesRejWordConstraint: :672-705 *)
Fixpoint starts_with (acc w : str) : option str :=
  match acc, w with [] , _ => Some w | a :: acc', c :: w' => if Ascii.eqb a c then starts_with acc' w' else None | _, [] => None end.
Fixpoint wordSatisfiesRej (rej : list (str * str)) (w : str) : bool :=
  match rej with
  | [] => true
  | (acc, r) :: rej' => match starts_with acc w with None => false | Some t => if str_eqb t r then false else wordSatisfiesRej rej' w end
  end.

Section NB.
Variables hc ic sc dc ecmW wgW : Z.
Variable G : list warc.
Variable rest : nat -> Z.
Variable suffix : nat -> list nat -> list str.       (* state, excluded arcs *)

(** obtainNbestHypStates: :543-597, the score of one state; [Some None]: the state is left out.  Arcs have words ([words[0]]). *)
Definition succ_arcs (s : nat) : list warc := filter (fun a => Nat.eqb (a_pred a) s) G.
Definition satisf (rej : list (str * str)) (a : warc) : bool := match a_words a with [] => false | w :: _ => wordSatisfiesRej rej w end.
Definition bestRestSucc (rej : list (str * str)) (s : nat) : option Z :=
  fold_left (fun b a => if satisf rej a then let z := a_score a + rest (a_succ a) in if ltS b z then Some z else b else b) (succ_arcs s) None.
Definition state_rest (rej : list (str * str)) (s : nat) : option Z :=
  match rej with [] => Some (rest s) | _ => bestRestSucc rej s end.
Definition state_cand (st : wgp) (rej : list (str * str)) (s : nat) : list (Z * nat) :=
  match state_rest rej s, last (bestS st s) None with Some r, Some b => [(b + wgW * r, s)] | _, _ => [] end.
Definition obtainNbestHypStates (n : nat) (rej : list (str * str)) (states : list nat) (st : wgp) : option (list (Z * nat)) :=
  nb_all n (concat (map (state_cand st rej) states)) (Some []).

(** obtainNbestHypSubStates: :600-668 *)
Definition sub_cand (st : wgp) (rej : list (str * str)) (a : nat) (arc : warc) (w : nat) : list (Z * (nat * nat)) :=
  if match rej with [] => true | _ => wordSatisfiesRej rej (nth (S w) (a_words arc) []) end
  then match wgS st (a_pred arc) with
       | Some z => [(wgW * z + ecmW * (- last (scrVec (nth w (esiA st a) (mkesi [] []))) 0) + wgW * rest (a_pred arc), (a, w))]
       | None => []
       end
  else [].
Definition arc_cands (st : wgp) (rej : list (str * str)) (a : nat) (arc : warc) : list (Z * (nat * nat)) :=
  concat (map (sub_cand st rej a arc) (seq 0 (length (a_words arc) - 1))).
Fixpoint sub_cands (st : wgp) (rej : list (str * str)) (a : nat) (arcs : list warc) : list (Z * (nat * nat)) :=
  match arcs with [] => [] | arc :: arcs' => arc_cands st rej a arc ++ sub_cands st rej (S a) arcs' end.
Definition obtainNbestHypSubStates (n : nat) (rej : list (str * str)) (st : wgp) : option (list (Z * (nat * nat))) :=
  nb_all n (sub_cands st rej 0 G) (Some []).

(** the common part of obtainCorrForHypState and obtainCorrForHypSubState; StrProcUtils::removeLastBlank of the last word *)
Definition strip_last (l : list str) : list str := match l with [] => [] | _ => removelast l ++ [removeLastBlank (last l [])] end.
Definition combine_pref (uncorr p : list str) : option (list str) :=
  match uncorr with
  | [] => Some (strip_last p)
  | _ => match correct_given_prefix hc ic sc dc false uncorr p with Some (_, r) => Some r | None => None end
  end.
(** the arcs leaving [s] whose first word is not compatible: :1010-1022 *)
Fixpoint excluded (rej : list (str * str)) (s a : nat) (arcs : list warc) : list nat :=
  match arcs with
  | [] => []
  | arc :: arcs' => (if (Nat.eqb (a_pred arc) s && negb (satisf rej arc))%bool then [a] else []) ++ excluded rej s (S a) arcs'
  end.
(** obtainCorrForHypState: :997-1065 *)
Definition obtainCorrForHypState (st : wgp) (p : list str) (rej : list (str * str)) (s : nat) : option (list str) :=
  match bestUncorr G st (length G) s (length p) with
  | None => None
  | Some u => match combine_pref u p with
              | None => None
              | Some c => Some (strip_last (c ++ suffix s (match rej with [] => [] | _ => excluded rej s 0 G end)))
              end
  end.
(** obtainBestUncorrPrefHypSubState: :967-994 *)
Definition bestUncorrSub (st : wgp) (pos a w : nat) : option (list str) :=
  match nth_error G a with
  | None => None
  | Some arc => match back_words (esiA st a) (S w) pos with
                | None => None
                | Some pos' => match bestUncorr G st (length G) (a_pred arc) pos' with Some r => Some (r ++ firstn (S w) (a_words arc)) | None => None end
                end
  end.
(** obtainCorrForHypSubState: :1068-1150 *)
Definition obtainCorrForHypSubState (st : wgp) (p : list str) (aw : nat * nat) : option (list str) :=
  match nth_error G (fst aw), bestUncorrSub st (length p) (fst aw) (snd aw) with
  | Some arc, Some u => match combine_pref u p with
              | None => None
              | Some c => Some (strip_last (c ++ skipn (S (snd aw)) (a_words arc) ++ suffix (a_succ arc) []))
              end
  | _, _ => None
  end.

Fixpoint map_opt {A B} (f : A -> option B) (l : list A) : option (list B) :=
  match l with
  | [] => Some []
  | x :: l' => match f x, map_opt f l' with Some y, Some r => Some (y :: r) | _, _ => None end
  end.
(** obtainNbestCorrections: :867-911 *)
Definition obtainNbestCorrections (n : nat) (st : wgp) (p : list str) (rej : list (str * str)) (hs : list (Z * nat)) (hss : list (Z * (nat * nat))) : option (list (Z * list str)) :=
  match map_opt (fun c => option_map (pair (fst c)) (obtainCorrForHypState st p rej (snd c))) hs,
        map_opt (fun c => option_map (pair (fst c)) (obtainCorrForHypSubState st p (snd c))) hss with
  | Some a, Some b => nb_all n (a ++ b) (Some [])
  | _, _ => None
  end.
(** the rest of correct: :362-385 *)
Definition correctWg (n : nat) (rej : list (str * str)) (states : list nat) (st : wgp) (p : list str) : option (list (Z * list str)) :=
  match obtainNbestHypStates n rej states st, obtainNbestHypSubStates n rej st with
  | Some hs, Some hss => obtainNbestCorrections n st p rej hs hss
  | _, _ => None
  end.
End NB.
