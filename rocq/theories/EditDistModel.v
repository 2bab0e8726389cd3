(** src/error_correction/_editDist.h, EditDistForVec.h, EditDistForStr.cc: dynamic programming edit distance.
    Scores are exact integers (finite doubles are integers up to a common power-of-two scale; rounding is not modelled).
    The distance matrix is a total function; initDm (_editDist.h:371-391) allocates (dim+1)x(dim+1) cells with
    dim >= |x|,|y|, and all accesses below have i<=|x|, j<=|y|. *)
From Coq Require Import Arith ZArith List Bool.
From Verif Require Import EditDistSpec.
Import ListNotations.
Open Scope Z_scope.

Definition dmat := nat -> nat -> Z.
Definition dm_set (dm : dmat) (i j : nat) (v : Z) : dmat :=
  fun i' j' => if (Nat.eqb i' i && Nat.eqb j' j)%bool then v else dm i' j'.

(** operation ids: BaseEditDist.h:39-48; result of processMatrixCell *)
Record cellres := mkcell { c_score : Z; c_pi : nat; c_pj : nat; c_op : eop }.

Section ED.
Context {A : Type}.
Variable eqb : A -> A -> bool.                       (* x[i-1]==y[j-1] *)
Variables (hitc subc : A -> A -> Z) (insc delc : A -> Z).
Variable d0 : A.                                     (* what an out-of-range read would give; never relevant *)

(** Common body of processMatrixCell (EditDistForVec.h:77-145, EditDistForStr.cc:96-173) and
    processMatrixCellPref (EditDistForStr.cc:176-258).  [dcost j a] and [dop j a] are the deletion cost and operation
    used in the general case (i!=0, j!=0). *)
Definition cell_gen (dcost : nat -> A -> Z) (dop : nat -> A -> eop) (x y : list A) (dm : dmat) (i j : nat) : cellres :=
  match i, j with
  | O, O => mkcell 0 0 0 NONE_OP
  | O, S j' => mkcell (dm 0%nat j' + insc (nth j' y d0)) 0 j' INS_OP
  | S i', O => mkcell (dm i' 0%nat + delc (nth i' x d0)) i' 0 DEL_OP
  | S i', S j' =>
      let a := nth i' x d0 in
      let b := nth j' y d0 in
      let r1 := if eqb a b then mkcell (dm i' j' + hitc a b) i' j' HIT_OP
                else mkcell (dm i' j' + subc a b) i' j' SUBST_OP in
      let r2 := if dm i' j + dcost j a <? c_score r1 then mkcell (dm i' j + dcost j a) i' j (dop j a) else r1 in
      if dm i j' + insc b <? c_score r2 then mkcell (dm i j' + insc b) i j' INS_OP else r2
  end.
Definition ed_cell := cell_gen (fun _ => delc) (fun _ _ => DEL_OP).

(** deletions are free once all of y has been produced: EditDistForStr.cc:211-223 *)
Definition pref_dcost (usePrefDel : bool) (J j : nat) (a : A) : Z := if (usePrefDel && Nat.eqb j J)%bool then 0 else delc a.
Definition ed_cell_pref (usePrefDel : bool) (x y : list A) : dmat -> nat -> nat -> cellres :=
  cell_gen (pref_dcost usePrefDel (length y))
           (fun j a => if pref_dcost usePrefDel (length y) j a =? 0 then PREF_DEL_OP else DEL_OP) x y.

(** the two nested loops filling the matrix: _editDist.h:203-209, EditDistForStr.cc:80-87 *)
Definition fill_row (cell : dmat -> nat -> nat -> cellres) (i n : nat) (dm : dmat) : dmat :=
  fold_left (fun dm j => dm_set dm i j (c_score (cell dm i j))) (seq 0 n) dm.
Definition fill (cell : dmat -> nat -> nat -> cellres) (m n : nat) (dm : dmat) : dmat :=
  fold_left (fun dm i => fill_row cell i n dm) (seq 0 m) dm.
Definition initDm : dmat := fun _ _ => 0.

(** calculateEditDistDm: _editDist.h:192-212 *)
Definition ed_matrix (x y : list A) : dmat := fill (ed_cell x y) (S (length x)) (S (length y)) initDm.
Definition calculateEditDist (x y : list A) : Z := ed_matrix x y (length x) (length y).

(** obtainOperations: _editDist.h:334-367 (i, j are updated through the reference arguments pred_i, pred_j; the
    by-value copies are used inside the call).  The result is reversed at the end. *)
Fixpoint trace (cell : dmat -> nat -> nat -> cellres) (dm : dmat) (fuel i j : nat) (acc : list eop) : option (list eop) :=
  match i, j with
  | O, O => Some acc
  | _, _ => match fuel with
            | O => None
            | S f => let r := cell dm i j in trace cell dm f (c_pi r) (c_pj r) (c_op r :: acc)
            end
  end.

(** countOpsGivenOpVec / obtainOpsAndOpCostsPerType: _editDist.h:270-330 *)
Definition count_ops (ops : list eop) : nat * nat * nat * nat :=
  fold_left (fun c o => let '(h, i, s, d) := c in
     match o with
     | HIT_OP => (S h, i, s, d) | INS_OP => (h, S i, s, d) | SUBST_OP => (h, i, S s, d) | DEL_OP => (h, i, s, S d)
     | _ => c end) ops (0, 0, 0, 0)%nat.

(** calculateEditDistOps: _editDist.h:216-249; returns distance and (hits, insertions, substitutions, deletions).
    Fuel |x|+|y|+1 is enough (proved); [None] would be a traceback that does not end. *)
Definition calculateEditDistOps (x y : list A) : option (Z * (nat * nat * nat * nat)) :=
  let dm := ed_matrix x y in
  match trace (ed_cell x y) dm (S (length x + length y)) (length x) (length y) [] with
  | None => None
  | Some ops => Some (dm (length x) (length y), count_ops ops)
  end.

(** calculateEditDistPrefixOpsAux: EditDistForStr.cc:67-93; obtainOperationsPref: :262-288 drops PREF_DEL_OP *)
Definition pref_matrix (usePrefDel : bool) (x y : list A) : dmat :=
  fill (ed_cell_pref usePrefDel x y) (S (length x)) (S (length y)) initDm.
(** calculateEditDistPrefix returns the last cell: EditDistForStr.cc:39-46 and :67-93 *)
Definition calculateEditDistPrefix (usePrefDel : bool) (x y : list A) : Z := pref_matrix usePrefDel x y (length x) (length y).
Definition not_pref_del (o : eop) : bool := match o with PREF_DEL_OP => false | _ => true end.
Definition calculateEditDistPrefixOps (usePrefDel : bool) (x y : list A) : option (Z * list eop) :=
  let dm := pref_matrix usePrefDel x y in
  match trace (ed_cell_pref usePrefDel x y) dm (S (length x + length y)) (length x) (length y) [] with
  | None => None
  | Some ops => Some (dm (length x) (length y), filter not_pref_del ops)
  end.
End ED.
