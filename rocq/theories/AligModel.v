(** src/nlp_common/WordAligMatrix.cc: word alignment matrices.
    A matrix is its dimensions and a total cell function; only cells i<I, j<J are ever accessed by the modelled code
    unless stated ([None]).  The argument matrix is taken to be a different object than *this (no aliasing). *)
From Coq Require Import Arith NArith ZArith List Bool.
From Verif Require Import AligSpec.
Import ListNotations.

(** matrix[i][j]=v *)
Definition wput (m : wam) (i j : nat) (v : N) : wam :=
  mkwam (wI m) (wJ m) (fun i' j' => if (i' =? i) && (j' =? j) then v else wc m i' j').
(** for(i=0;i<I;++i) for(j=0;j<J;++j) *)
Definition cells (I J : nat) : list (nat * nat) := flat_map (fun i => map (fun j => (i, j)) (seq 0 J)) (seq 0 I).
Definition for_ij (I J : nat) (body : wam -> nat * nat -> wam) (m : wam) : wam := fold_left body (cells I J) m.
Definition nz (v : N) : bool := negb (N.eqb v 0).

(** init (:75-92) + reset (:132-139): both branches end in an all-zero matrix of the given dimensions *)
Definition w_init (I J : nat) : wam := mkwam I J (fun _ _ => 0%N).
Definition w_empty : wam := mkwam 0 0 (fun _ _ => 0%N).      (* default constructor :28-32 *)
(** reset/set/set(i,j)/setValue: :132-161 *)
Definition w_reset (m : wam) : wam := for_ij (wI m) (wJ m) (fun m c => wput m (fst c) (snd c) 0) m.
Definition w_setall (m : wam) : wam := for_ij (wI m) (wJ m) (fun m c => wput m (fst c) (snd c) 1) m.
Definition w_setValue (m : wam) (i j : nat) (v : N) : wam := if (i <? wI m) && (j <? wJ m) then wput m i j v else m.
Definition w_set (m : wam) (i j : nat) : wam := w_setValue m i j 1.
(** putAligVec: :95-106; a value above I writes outside the matrix *)
Fixpoint put_from (m : wam) (j : nat) (v : list nat) : option wam :=
  match v with
  | [] => Some m
  | a :: v' => if 0 <? a then (if a <=? wI m then put_from (wput m (a - 1) j 1) (S j) v' else None)
               else put_from m (S j) v'
  end.
Definition putAligVec (m : wam) (v : list nat) : option wam :=
  if length v =? wJ m then put_from m 0 v else Some m.
(** getAligVec: :109-129; inner loop over the rows of one column, [None] = clear() and return false *)
Definition get_col (m : wam) (j : nat) : option nat :=
  fold_left (fun a i => match a with
                        | None => None
                        | Some a => if nz (wc m i j) then (if a =? 0 then Some i else None) else Some a
                        end) (seq 0 (wI m)) (Some 0).
Definition getAligVec (m : wam) : option (list nat) :=
  fold_left (fun r j => match r with
                        | None => None
                        | Some v => match get_col m j with None => None | Some a => Some (v ++ [a]) end
                        end) (seq 0 (wJ m)) (Some []).
(** transpose: :164-177; operator= (:180-190) copies *)
Definition w_transpose (m : wam) : wam :=
  for_ij (wI m) (wJ m) (fun t c => wput t (snd c) (fst c) (wc m (fst c) (snd c))) (w_init (wJ m) (wI m)).
(** operator==: :193-206 *)
Definition dims_eqb (m w : wam) : bool := (wI m =? wI w) && (wJ m =? wJ w).
Definition w_eqb (m w : wam) : bool :=
  dims_eqb m w && forallb (fun c => N.eqb (wc w (fst c) (snd c)) (wc m (fst c) (snd c))) (cells (wI m) (wJ m)).
(** flip: :209-220 *)
Definition w_flip (m : wam) : wam :=
  for_ij (wI m) (wJ m) (fun m c => wput m (fst c) (snd c) (if nz (wc m (fst c) (snd c)) then 0 else 1)%N) m.
(** operator&= :223-238, |= :241-253, ^= :256-271, += :273-284, -= :287-299 *)
Definition w_and (m w : wam) : wam :=
  if dims_eqb m w then for_ij (wI m) (wJ m) (fun m c =>
    if nz (wc m (fst c) (snd c)) && nz (wc w (fst c) (snd c)) then m else wput m (fst c) (snd c) 0) m else m.
Definition w_or (m w : wam) : wam :=
  if dims_eqb m w then for_ij (wI m) (wJ m) (fun m c =>
    if nz (wc m (fst c) (snd c)) || nz (wc w (fst c) (snd c)) then wput m (fst c) (snd c) 1 else m) m else m.
Definition w_xor (m w : wam) : wam :=
  if dims_eqb m w then for_ij (wI m) (wJ m) (fun m c =>
    if (nz (wc m (fst c) (snd c)) && negb (nz (wc w (fst c) (snd c)))) || (negb (nz (wc m (fst c) (snd c))) && nz (wc w (fst c) (snd c)))
    then wput m (fst c) (snd c) 1 else wput m (fst c) (snd c) 0) m else m.
Definition w_plus (m w : wam) : wam :=
  if dims_eqb m w then for_ij (wI m) (wJ m) (fun m c =>
    wput m (fst c) (snd c) ((wc m (fst c) (snd c) + wc w (fst c) (snd c)) mod 2 ^ 32)%N) m else m.
Definition w_minus (m w : wam) : wam :=
  if dims_eqb m w then for_ij (wI m) (wJ m) (fun m c =>
    if nz (wc m (fst c) (snd c)) && negb (nz (wc w (fst c) (snd c))) then wput m (fst c) (snd c) 1 else m) m else m.

(** jAligned :512-520, iAligned :523-531 *)
Definition jAligned (m : wam) (j : nat) : bool := existsb (fun i => nz (wc m i j)) (seq 0 (wI m)).
Definition iAligned (m : wam) (i : nat) : bool := existsb (fun j => nz (wc m i j)) (seq 0 (wJ m)).
(** ijHasVertNeighbours :503-509, ijHasHorizNeighbours :494-500, ijInNeighbourhood :483-491 (i<I, j<J, so I-1 does not wrap) *)
Definition up (m : wam) (i j : nat) : bool := (0 <? i) && nz (wc m (i - 1) j).
Definition left (m : wam) (i j : nat) : bool := (0 <? j) && nz (wc m i (j - 1)).
Definition down (m : wam) (i j : nat) : bool := (i <? wI m - 1) && nz (wc m (i + 1) j).
Definition right (m : wam) (i j : nat) : bool := (j <? wJ m - 1) && nz (wc m i (j + 1)).
Definition hasVert (m : wam) (i j : nat) : bool := up m i j || down m i j.
Definition hasHoriz (m : wam) (i j : nat) : bool := left m i j || right m i j.
Definition inNeighbourhood (m : wam) (i j : nat) : bool := up m i j || left m i j || down m i j || right m i j.

(** one visit of the double loop of symmetr1 (:319-328) and symmetr2 (:351-361); src is the copy aux of *this *)
Definition sym1_step (src w m : wam) (c : nat * nat) : wam :=
  let (i, j) := c in
  if (nz (wc w i j) || nz (wc src i j)) && negb (nz (wc m i j)) then
    if negb (jAligned m j) && negb (iAligned m i) then wput m i j 1
    else if inNeighbourhood m i j then wput m i j 1 else m
  else m.
Definition sym2_step (src w m : wam) (c : nat * nat) : wam :=
  let (i, j) := c in
  if (nz (wc w i j) || nz (wc src i j)) && negb (nz (wc m i j)) then
    if negb (jAligned m j) && negb (iAligned m i) then wput m i j 1
    else if inNeighbourhood m i j then (if negb (hasHoriz m i j && hasVert m i j) then wput m i j 1 else m) else m
  else m.
(** while(!( *this==prev)) { prev=*this; pass }.  [None]: more than the given number of iterations. *)
Fixpoint sym_loop (pass : wam -> wam) (fuel : nat) (prev cur : wam) : option wam :=
  if w_eqb cur prev then Some cur else
  match fuel with O => None | S f => sym_loop pass f cur (pass cur) end.
Definition fuel_for (m : wam) : nat := wI m * wJ m + 2.
(** symmetr1: :302-331, symmetr2: :334-365 *)
Definition symmetr1 (m w : wam) : option wam :=
  if dims_eqb m w then sym_loop (for_ij (wI m) (wJ m) (sym1_step m w)) (fuel_for m) w_empty (w_and m w) else Some m.
Definition symmetr2 (m w : wam) : option wam :=
  if dims_eqb m w then sym_loop (for_ij (wI m) (wJ m) (sym2_step m w)) (fuel_for m) w_empty (w_and m w) else Some m.

(** obtainAdjacentCells: :454-480, with the int arithmetic of the code *)
Definition deltas : list Z := [-1; 0; 1]%Z.
Definition obtainAdjacentCells (m : wam) (i j : nat) : list (nat * nat) :=
  flat_map (fun di => flat_map (fun dj =>
    if negb (Z.eqb di 0) || negb (Z.eqb dj 0) then
      let ip := (Z.of_nat i + di)%Z in let jp := (Z.of_nat j + dj)%Z in
      if (ip <? Z.of_nat (wI m))%Z && (jp <? Z.of_nat (wJ m))%Z && (0 <=? ip)%Z && (0 <=? jp)%Z
      then [(Z.to_nat ip, Z.to_nat jp)] else []
    else []) deltas) deltas.
(** "(!iAligned(i) || !jAligned(j)) && other.getValue(i,j)" then set(i,j): :406-410, :426-429, :438-441 *)
Definition add_step (other m : wam) (c : nat * nat) : wam :=
  let (i, j) := c in
  if (negb (iAligned m i) || negb (jAligned m j)) && nz (wc other i j) then w_set m i j else m.
Definition grow_step (join m : wam) (c : nat * nat) : wam :=
  let (i, j) := c in
  if nz (wc m i j) then fold_left (add_step join) (obtainAdjacentCells m i j) m else m.
(** while(!end): :391-418 *)
Fixpoint grow_loop (pass : wam -> wam) (fuel : nat) (cur : wam) : option wam :=
  match fuel with
  | O => None
  | S f => let nxt := pass cur in if w_eqb cur nxt then Some nxt else grow_loop pass f nxt
  end.
(** growDiagFinal: :368-451 *)
Definition growDiagFinal (m w : wam) : option wam :=
  if dims_eqb m w then
    let inter := w_and m w in
    let join := w_or m w in
    match grow_loop (for_ij (wI m) (wJ m) (grow_step join)) (fuel_for m) inter with
    | None => None
    | Some g => Some (for_ij (wI m) (wJ m) (add_step w) (for_ij (wI m) (wJ m) (add_step m) g))
    end
  else Some m.
