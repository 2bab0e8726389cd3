(** src/error_correction/EditDistForVecString.{h,cc} and _editDistBasedEcm.cc: word-level edit distance with
    character-level word costs, and the correction of a sentence given a prefix typed by the user.
    EDIT_DIST_FAST_ED_VECSTR and EDIT_DIST_WITHOUT_BLANKS are defined nowhere in the project, so the other branches are
    modelled.  Scores are exact integers, as in EditDistModel.v.  addBlankCharacters (:140-147) takes its argument by
    value, so its two calls in calculateEditDistPrefixOpsAux change nothing and are omitted. *)
From Coq Require Import Ascii String Arith ZArith List Bool.
From Verif Require Import EditDistSpec EditDistModel TextSpec TextModel.
Import ListNotations.
Open Scope Z_scope.

Section EC.
Variables hc ic sc dc : Z.        (* hitCost, insCost, substCost, delCost; setErrorModel :277-291 sets both levels *)

(** insertionCost, deletionCost: EditDistForVecString.h:167-183 *)
Definition insertionCost (s : str) : Z := ic * Z.of_nat (length s).
Definition deletionCost (s : str) : Z := dc * Z.of_nat (length s).

Definition weighted (cnt : nat * nat * nat * nat) : Z :=
  let '(h, i, s, d) := cnt in hc * Z.of_nat h + ic * Z.of_nat i + sc * Z.of_nat s + dc * Z.of_nat d.

(** character level: EditDistForStr *)
Definition char_ops (x y : str) := calculateEditDistOps Ascii.eqb (fun _ _ => hc) (fun _ _ => sc) (fun _ => ic) (fun _ => dc) NUL x y.
Definition char_pref_ops (x y : str) := calculateEditDistPrefixOps Ascii.eqb (fun _ _ => hc) (fun _ _ => sc) (fun _ => ic) (fun _ => dc) NUL true x y.

(** substitutionCost: EditDistForVecString.h:189-204; prefSubstitutionCost: :210-231.  The traceback always ends
    (C14), so the 0 of the [None] case is never used. *)
Definition substitutionCost (x y : str) : Z := match char_ops x y with Some (_, cnt) => weighted cnt | None => 0 end.
Definition prefSubstitutionCost (x y : str) : Z := match char_pref_ops x y with Some (_, ops) => weighted (count_ops ops) | None => 0 end.

(** cachedPrefSubstCost, cachedSubstCost: EditDistForVecString.cc:482-513; the map is an association list *)
Definition PREF : str := list_ascii_of_string " pref".
Definition scmap := list ((str * str) * Z).
Fixpoint scm_find (k : str * str) (m : scmap) : option Z :=
  match m with
  | [] => None
  | ((a, b), v) :: m' => if (str_eqb a (fst k) && str_eqb b (snd k))%bool then Some v else scm_find k m'
  end.
Definition cachedPrefSubstCost (x y : str) (m : scmap) : Z * scmap :=
  match scm_find (x ++ PREF, y) m with
  | Some v => (v, m)
  | None => let v := prefSubstitutionCost x y in (v, ((x ++ PREF, y), v) :: m)
  end.
Definition cachedSubstCost (x y : str) (m : scmap) : Z * scmap :=
  match scm_find (x, y) m with
  | Some v => (v, m)
  | None => let v := substitutionCost x y in (v, ((x, y), v) :: m)
  end.

(** processMatrixCellPref: EditDistForVecString.cc:381-479.  [complete] is lastWordIsComplete.  The word costs are
    taken directly; C92_cost_cache shows that the cached versions return the same. *)
Definition wcell (complete useDel : bool) (x y : list str) (dm : dmat) (i j : nat) : cellres :=
  match i, j with
  | O, O => mkcell 0 0 0 NONE_OP
  | O, S j' => mkcell (dm 0%nat j' + insertionCost (nth j' y [])) 0 j' INS_OP
  | S i', O => mkcell (dm i' 0%nat + deletionCost (nth i' x [])) i' 0 DEL_OP
  | S i', S j' =>
      let a := nth i' x [] in
      let b := nth j' y [] in
      let subst_cost := if (Nat.eqb j (length y) && negb complete)%bool then prefSubstitutionCost a b else substitutionCost a b in
      let op := if (str_eqb a b || (negb complete && isPrefix b a))%bool then HIT_OP else SUBST_OP in
      let r1 := mkcell (dm i' j' + subst_cost) i' j' op in
      let del_cost := if (useDel && Nat.eqb j (length y))%bool then 0 else deletionCost a in
      let r2 := if dm i' j + del_cost <? c_score r1
                then mkcell (dm i' j + del_cost) i' j (if del_cost =? 0 then PREF_DEL_OP else DEL_OP) else r1 in
      if dm i j' + insertionCost b <? c_score r2 then mkcell (dm i j' + insertionCost b) i j' INS_OP else r2
  end.

(** obtainOperationsPref: :516-567.  Word-level operations in order, and the character-level operations (the vector
    passed by the callers starts empty). *)
Fixpoint wtrace (complete useDel : bool) (x y : list str) (dm : dmat) (fuel i j : nat) (ops chars : list eop) : option (list eop * list eop) :=
  match i, j with
  | O, O => Some (ops, chars)
  | _, _ =>
    match fuel with
    | O => None
    | S f =>
      let r := wcell complete useDel x y dm i j in
      let ops' := if not_pref_del (c_op r) then c_op r :: ops else ops in
      if (Nat.eqb (c_pj r + 1) (length y) && negb complete && match c_op r with HIT_OP => true | _ => false end)%bool
      then match char_pref_ops (nth (c_pi r) x []) (last y []) with
           | Some (_, co) => wtrace complete useDel x y dm f (c_pi r) (c_pj r) ops' co
           | None => None
           end
      else wtrace complete useDel x y dm f (c_pi r) (c_pj r) ops' chars
    end
  end.

(** calculateEditDistPrefixOpsAux: :85-137 *)
Definition set_last (y : list str) (w : str) : list str := match y with [] => [] | _ => removelast y ++ [w] end.
Definition pref_complete (y : list str) : bool := match y with [] => true | _ => lastCharIsBlank (last y []) end.
Definition pref_words (y : list str) : list str := set_last y (if pref_complete y then removeLastBlank (last y []) else last y []).
Definition wmatrix (useDel : bool) (x y : list str) : dmat :=
  fill (wcell (pref_complete y) useDel x (pref_words y)) (S (length x)) (S (length y)) initDm.
Definition wEditDistPrefixOps (useDel : bool) (x y : list str) : option (Z * (list eop * list eop)) :=
  let dm := wmatrix useDel x y in
  match wtrace (pref_complete y) useDel x (pref_words y) dm (S (length x + length y)) (length x) (length y) [] [] with
  | None => None
  | Some o => Some (dm (length x) (length y), o)
  end.

(** correctWordGivenPrefOps: _editDistBasedEcm.cc:146-184; [None]: a read outside a string (reading position size() of
    a std::string gives NUL and is not an error in C++, but no correct run does it) *)
Fixpoint correctWord_loop (ops : list eop) (w p : str) (i j : nat) (acc : str) : option (str * nat) :=
  match ops with
  | [] => Some (acc, i)
  | HIT_OP :: ops' => match nth_error w i with Some c => correctWord_loop ops' w p (S i) (S j) (acc ++ [c]) | None => None end
  | INS_OP :: ops' => match nth_error p j with Some c => correctWord_loop ops' w p i (S j) (acc ++ [c]) | None => None end
  | DEL_OP :: ops' => correctWord_loop ops' w p (S i) j acc
  | SUBST_OP :: ops' => match nth_error p j with Some c => correctWord_loop ops' w p (S i) (S j) (acc ++ [c]) | None => None end
  | _ :: ops' => correctWord_loop ops' w p i j acc
  end.
Definition correctWordGivenPrefOps (ops : list eop) (w p : str) : option str :=
  match correctWord_loop ops w p 0 0 [] with Some (acc, i) => Some (acc ++ skipn i w) | None => None end.

(** the last character of prefStrVec[j]; [None]: no such word, or an empty word (index -1) *)
Definition ends_blank (w : str) : option bool := match w with [] => None | _ => Some (Ascii.eqb (last w NUL) SP) end.
(** removal of all trailing blanks: :50-60 *)
Fixpoint strip_blanks (w : str) : str :=
  match w with [] => [] | c :: w' => match strip_blanks w' with [] => if Ascii.eqb c SP then [] else [c] | t => c :: t end end.

(** one operation: :67-135 *)
Definition correct_step (chars : list eop) (x p : list str) (lasty : str) (st : list str * nat * nat) (o : eop) : option (list str * nat * nat) :=
  let '(acc, i, j) := st in
  match o with
  | INS_OP =>
      match nth_error p j with
      | None => None
      | Some w => match ends_blank w with
                  | None => None
                  | Some b => Some (acc ++ [if b then lasty else w], i, S j)
                  end
      end
  | DEL_OP => Some (acc, S i, j)
  | HIT_OP | SUBST_OP =>
      match nth_error p j with
      | None => None
      | Some w =>
        if negb (Nat.eqb j (length p - 1)) then Some (acc ++ [w], S i, S j)
        else match ends_blank w with
             | None => None
             | Some true => Some (acc ++ [lasty], S i, S j)
             | Some false =>
                 match o with
                 | HIT_OP => match nth_error x i with
                             | None => None
                             | Some u => match correctWordGivenPrefOps chars u w with
                                         | None => None
                                         | Some r => Some (acc ++ [r], S i, S j)
                                         end
                             end
                 | _ => Some (acc ++ [w], S i, S j)
                 end
             end
      end
  | _ => Some (acc, i, j)
  end.
Fixpoint correct_loop (chars : list eop) (x p : list str) (lasty : str) (ops : list eop) (st : list str * nat * nat) : option (list str * nat * nat) :=
  match ops with
  | [] => Some st
  | o :: ops' => match correct_step chars x p lasty st o with None => None | Some st' => correct_loop chars x p lasty ops' st' end
  end.
(** correctStrGivenPrefOps: :34-143 *)
Definition correctStrGivenPrefOps (ops : list eop * list eop) (x p : list str) : option (list str) :=
  let lasty := match p with
               | [] => Some []
               | _ => match ends_blank (last p []) with
                      | None => None
                      | Some true => Some (strip_blanks (last p []))
                      | Some false => Some (last p [])
                      end
               end in
  match lasty with
  | None => None
  | Some ly => match correct_loop (snd ops) x p ly (fst ops) ([], O, O) with
               | None => None
               | Some (acc, i, _) => Some (acc ++ skipn i x)
               end
  end.

(** PfsmEcm::correctStrGivenPref (PfsmEcm.cc:54-63, useDel) and PfsmEcmForWg::correctStrGivenPref (PfsmEcmForWg.cc:33-41, not
    useDel), with the distance that similarityGivenPrefix (PfsmEcm.cc:47-51, :208-213) returns negated *)
Definition correct_given_prefix (useDel : bool) (x p : list str) : option (Z * list str) :=
  match wEditDistPrefixOps useDel x p with
  | None => None
  | Some (d, o) => match correctStrGivenPrefOps o x p with Some r => Some (d, r) | None => None end
  end.
End EC.
