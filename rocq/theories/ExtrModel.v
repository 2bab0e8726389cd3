(** /repo/src/phrase_models/PhraseExtractionTable.cc: extraction of consistent phrase pairs.
    Words are of any type; [ns] is the source sentence with the NULL word at position 0 (ns[0]), as in the code.
    Coverage bit sets (Bitset<MAX_SENTENCE_LENGTH>, see BitsetModel for the class itself) are the lists of their bits 0..nslen-1; the code
    only sets bits in that range, and other bits read false.  [nth] reads of the alignment outside its dimensions do not occur when
    the dimensions match the sentences, which the theorems assume (C++: undefined behaviour).  int/unsigned limits are naturals. *)
From Coq Require Import NArith Arith List Bool.
From Verif Require Import AligSpec AligModel ExtrSpec.
Import ListNotations.
Section Extr.
Context {W : Type}.
Variables (A : wam) (ns t : list W) (P : epars).
Definition tlen : nat := length t.
Definition nslen : nat := length ns.
Definition lnk (i j : nat) : bool := nz (wc A i j).
(** extractConsistentPhrasesOld, lines 63-86 *)
Definition maxSrc : nat := if e_srclen P then e_max P else MAX_SENTENCE_LENGTH.
(** Bitset::test, Bitset::set *)
Definition cov := list bool.
Definition tst (c : cov) (i : nat) : bool := nth i c false.
Fixpoint cset (c : cov) (i : nat) : cov :=
  match c, i with [], _ => [] | _ :: r, O => true :: r | b :: r, S k => b :: cset r k end.
Fixpoint corr (c d : cov) : cov := match c, d with x :: c', y :: d' => (x || y) :: corr c' d' | _, _ => [] end.
Fixpoint ceqb (c d : cov) : bool := match c, d with [], [] => true | x :: c', y :: d' => Bool.eqb x y && ceqb c' d' | _, _ => false end.
(** zeroFertBitset, lines 1049-1063 *)
Definition zfert (i : nat) : bool :=
  (0 <? i) && (if i - 1 <? wI A then negb (existsb (fun j => lnk (i - 1) j) (seq 0 (wJ A))) else true).
(** spuriousWordsBitset, lines 1066-1078 *)
Definition spur (j : nat) : bool := if j <? wJ A then negb (existsb (fun i => lnk i j) (seq 0 (wI A))) else true.
(** trgPhraseLengthInCell :1121-1125, trgPhraseLengthInCellNonSpurious :1128-1140 *)
Definition lenInCell (x y : nat) : nat := y - (tlen - x - 1) + 1.
Definition span (x y : nat) : list nat := seq (tlen - x - 1) (S y - (tlen - x - 1)).
Definition lenNonSpur (x y : nat) : nat := length (filter (fun j => negb (spur j)) (span x y)).
(** validCoverageForCell, lines 985-1046 *)
Fixpoint scan_cov (c : cov) (is_ : list nat) (lm num : nat) : option (nat * nat) :=   (* None: a gap *)
  match is_ with
  | [] => Some (lm, num)
  | i :: r =>
    let lm := if tst c i && (i <? lm) then i else lm in
    if (0 <? num) && tst c i && negb (tst c (i - 1)) then None
    else scan_cov c r lm (if tst c i then S num else num)
  end.
Definition sourcePosInCell (j x y : nat) : bool := (j <=? y) && (tlen - x - 1 <=? j).
Definition outside_ok (c : cov) (x y lm : nat) : bool :=
  forallb (fun j => sourcePosInCell j x y || forallb (fun i =>
      negb (lnk i j) ||
      (negb (tst c (i + 1)) &&
       (negb (e_mono P) || (if i + 1 <? lm then negb (y <? j) else negb (j <? tlen - x - 1)))))
    (seq 0 (nslen - 1))) (seq 0 tlen).
Definition validCoverageForCell (c : cov) (x y : nat) : bool :=
  if (x =? tlen - 1) && (y =? tlen - 1) then
    forallb (tst c) (seq 1 (nslen - 1)) && (nslen - 1 <=? maxSrc) && outside_ok c x y nslen
  else match scan_cov c (seq 1 (nslen - 1)) nslen 0 with
       | None => false
       | Some (lm, num) => negb (num =? 0) && (num <=? maxSrc) && outside_ok c x y lm
       end.
(** CellAlignment *)
Record ca := mkca { c_cov : cov; c_ok : bool }.
(** extern cell: the links of target word y (lines 768-776) *)
Definition ext_step (y : nat) (st : cov * nat * nat) (i : nat) : cov * nat * nat :=
  let '(c, l, r) := st in
  if lnk i y then (cset c (i + 1), (if i + 1 <? l then i + 1 else l), (if r <? i + 1 then i + 1 else r)) else st.
Definition ext_links (y : nat) : cov * nat * nat := fold_left (ext_step y) (seq 0 (nslen - 1)) (repeat false nslen, nslen, 0).
(** zero-fertility words in between (lines 778-779) *)
Definition ext_fill (l r : nat) (c : cov) : cov :=
  fold_left (fun c i => if zfert i && (l <? i) && (i <? r) then cset c i else c) (seq 1 (nslen - 1)) c.
(** while loops of lines 792-796 and 813-817 *)
Fixpoint left_loop (i : nat) (c : cov) : nat * cov :=
  match i with O => (O, c) | S i' => if zfert i then left_loop i' (cset c i) else (i, c) end.
Fixpoint right_loop (n i : nat) (c : cov) : nat * cov :=
  match n with O => (i, c) | S n' => if zfert i then right_loop n' (S i) (cset c i) else (i, c) end.
Definition ext_cell (x y : nat) : list ca :=
  let '(c0, l, r) := ext_links y in
  let c := ext_fill l r c0 in
  let base := mkca c (validCoverageForCell c x y && (0 <? lenNonSpur x y)) in
  let lefts := if (0 <? l) && negb (l =? nslen) then
                 let '(i, c') := left_loop (l - 1) c in
                 if zfert (i + 1) then [mkca c' (validCoverageForCell c' x y)] else []
               else [] in
  let rights := if (r <? nslen - 1) && negb (r =? 0) then
                  let '(i, c') := right_loop (nslen - (r + 1)) (r + 1) c in
                  if zfert (i - 1) then [mkca c' (validCoverageForCell c' x y)] else []
                else [] in
  base :: lefts ++ rights.
(** inner cell, lines 828-850; existCellAlig, lines 1081-1096 *)
Definition table := nat -> nat -> list ca.
Definition exist_cell (l : list ca) (c : cov) : bool := existsb (fun a => ceqb (c_cov a) c) l.
Definition add_cell (x y : nat) (l : list ca) (c : cov) : list ca :=
  if exist_cell l c then l else l ++ [mkca c (validCoverageForCell c x y)].
Definition inner_cell (T : table) (x y : nat) : list ca :=
  fold_left (fun l z =>
    fold_left (fun l a => fold_left (fun l b => add_cell x y l (corr (c_cov a) (c_cov b))) (T (tlen - 2 - z) y) l) (T x z) l)
    (seq (tlen - x - 1) (y - (tlen - x - 1))) [].
(** obtainConsistentPhrases, lines 741-853; cells not processed keep the empty vector clear() left *)
Definition set_cell (T : table) (x y : nat) (l : list ca) : table := fun x' y' => if (x' =? x) && (y' =? y) then l else T x' y'.
Definition fill_cell (y : nat) (T : table) (x : nat) : table :=
  let len := if e_spur P then lenInCell x y else lenNonSpur x y in
  if len <=? e_max P then set_cell T x y (if x =? tlen - y - 1 then ext_cell x y else inner_cell T x y) else T.
Definition fill_row (T : table) (y : nat) : table := fold_left (fill_cell y) (seq (tlen - y - 1) (tlen - (tlen - y - 1))) T.
Definition fill_table : table := fold_left fill_row (seq 0 tlen) (fun _ _ => []).
(** createVectorWithConsPhrases, lines 899-936; reading ns[i] for a covered i, t[z] for z in the span *)
Definition pick_words (l : list W) (ids : list nat) : list W := flat_map (fun i => match nth_error l i with Some w => [w] | None => [] end) ids.
Definition mk_pair (x y : nat) (c : cov) : ppair W :=
  let src := filter (tst c) (seq 1 nslen) in
  let cells := flat_map (fun i => map (fun z => wc A (i - 1) z) (span x y)) src in
  mkpp (pick_words ns src) (pick_words t (span x y)) (fold_left N.add cells 0%N) (length (filter (fun v => (0 <? v)%N) cells)).
Definition cells_in_order : list (nat * nat) := flat_map (fun y => map (fun x => (x, y)) (seq (tlen - y - 1) (tlen - (tlen - y - 1)))) (seq 0 tlen).
Definition createVector (T : table) : list (ppair W) :=
  flat_map (fun xy => map (fun a => mk_pair (fst xy) (snd xy) (c_cov a)) (filter c_ok (T (fst xy) (snd xy)))) cells_in_order.
(** extractConsistentPhrasesOld: too long sentences leave the output vector [old] untouched *)
Definition extractOld (old : list (ppair W)) : list (ppair W) :=
  if (MAX_SENTENCE_LENGTH <=? tlen) || (MAX_SENTENCE_LENGTH <=? nslen - 1) then old else createVector fill_table.

(** extractConsistentPhrasesOch, lines 88-223 (compiled with USE_OCH_PHRASE_EXTRACT) *)
Definition slen : nat := nslen - 1.
Definition och_SP (i1 i2 : nat) : list nat :=
  filter (fun j => existsb (fun k => lnk (k - 1) (j - 1)) (seq i1 (S i2 - i1))) (seq 1 tlen).
Definition och_TP (j1 j2 : nat) : list nat :=
  filter (fun i => existsb (fun k => lnk (i - 1) (k - 1)) (seq j1 (S j2 - j1))) (seq 1 slen).
Definition jAl (j : nat) : bool := jAligned A j.
(** gap test, lines 128-147: note jAligned(jp) although jp is 1-based *)
Fixpoint och_consec (SP : list nat) : bool :=
  match SP with
  | a :: ((b :: _) as r) => (if a =? b - 1 then true else forallb jAl (seq (a + 1) (b - (a + 1)))) && och_consec r
  | _ => true
  end.
(** the two nested while loops, lines 190-219; fuel is the number of target words plus one *)
Fixpoint och_right (fuel : nat) (i1 i2 jp j2 jpp : nat) : list (nat * nat * nat * nat) :=
  match fuel with
  | O => []
  | S f => if (jpp =? j2) || ((jpp <=? tlen) && negb (jAl (jpp - 1))) then (i1, i2, jp, jpp) :: och_right f i1 i2 jp j2 (jpp + 1) else []
  end.
Fixpoint och_left (fuel : nat) (i1 i2 j1 j2 jp : nat) : list (nat * nat * nat * nat) :=
  match fuel with
  | O => []
  | S f => if (jp =? j1) || ((0 <? jp) && negb (jAl (jp - 1))) then och_right (S tlen) i1 i2 jp j2 j2 ++ och_left f i1 i2 j1 j2 (jp - 1) else []
  end.
Definition och_at (i1 i2 : nat) : list (nat * nat * nat * nat) :=
  let SP := och_SP i1 i2 in
  match SP with
  | [] => []
  | j1 :: _ =>
    if och_consec SP then
      let j2 := last SP 0 in
      let TP := och_TP j1 j2 in
      match TP with
      | [] => []
      | f :: _ => if (i1 <=? f) && (last TP 0 <=? i2) then och_left (S tlen) i1 i2 j1 j2 j1 else []
      end
    else []
  end.
Definition och_spans : list (nat * nat * nat * nat) :=
  flat_map (fun i1 => flat_map (fun i2 => och_at i1 i2) (seq i1 (S slen - i1))) (seq 1 slen).
Definition och_pair (q : nat * nat * nat * nat) : ppair W :=
  let '(i1, i2, j1, j2) := q in
  mkpp (pick_words ns (seq i1 (S i2 - i1))) (pick_words t (map pred (seq j1 (S j2 - j1)))) 1%N 1.
Definition extractOch (old : list (ppair W)) : list (ppair W) :=
  if (MAX_SENTENCE_LENGTH <=? tlen) || (MAX_SENTENCE_LENGTH <=? nslen - 1) then old
  else old ++ filter (fun p => length (pp_t p) <=? e_max P) (map och_pair och_spans).
End Extr.
