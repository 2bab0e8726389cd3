(** Hypotheses and their expansion: src/stack_dec/_pbTransModel.h, PbTransModel.h, _phraseHypothesis.h, TranslationMetadata.h.
    Positions and lengths are nat (unsigned int arithmetic does not wrap below 2^32; where the code subtracts, [usub] wraps explicitly).
    Scores are in DecScoreModel.v.  Words of the target language are indices; [itos] is wordIndexToTrgString, [stoi] is
    stringToTrgWordIndex (which adds unknown words to the vocabulary; see VocabModel.v).  Verbose output is not modelled.
    An out-of-range vector access is None. *)
From Coq Require Import Ascii String Arith List Bool.
From Verif Require Import DecSpec.
Import ListNotations.
Open Scope nat_scope.

(** unsigned int subtraction *)
Definition usub (a b : nat) : nat := if b <=? a then a - b else 2 ^ 32 + a - b.

(** getKey: _phraseHypothesis.h:223-238.  The Bitset<160> is a total function here: sentences of 160 words or more are refused by the
    decoder (_stackDecoder.h:663-680), and BitsetModel.v shows that set/test behave as a set. *)
Definition key_set (b : nat -> bool) (j : nat) : nat -> bool := fun x => if x =? j then true else b x.
Definition getKey (ss : list seg) : nat -> bool :=
  fold_left (fun b s => fold_left key_set (seq (fst s) (S (snd s) - fst s)) b) ss (fun _ => false).

(** extract_gaps: _pbTransModel.h:760-793; state of the loop: crossing_a_gap, gap.first, gaps *)
Fixpoint gaps_loop (js : list nat) (key : nat -> bool) (crossing : bool) (first : nat) (gaps : list seg) : bool * nat * list seg :=
  match js with
  | [] => (crossing, first, gaps)
  | j :: r =>
      let '(crossing, first) := if negb crossing && negb (key j) then (true, j) else (crossing, first) in
      let '(crossing, gaps) := if crossing && key j then (false, gaps ++ [(first, j - 1)]) else (crossing, gaps) in
      gaps_loop r key crossing first gaps
  end.
Definition extract_gaps (n : nat) (key : nat -> bool) : list seg :=
  let '(crossing, first, gaps) := gaps_loop (seq 1 n) key false 0 [] in
  if crossing then gaps ++ [(first, n + 1 - 1)] else gaps.
(** get_num_gaps: _pbTransModel.h:797-829 *)
Fixpoint numgaps_loop (js : list nat) (key : nat -> bool) (crossing : bool) (result : nat) : bool * nat :=
  match js with
  | [] => (crossing, result)
  | j :: r =>
      let crossing := if negb crossing && negb (key j) then true else crossing in
      let '(crossing, result) := if crossing && key j then (false, S result) else (crossing, result) in
      numgaps_loop r key crossing result
  end.
Definition get_num_gaps (n : nat) (key : nat -> bool) : nat :=
  let '(crossing, result) := numgaps_loop (seq 1 n) key false 0 in if crossing then S result else result.

(** nullHypothesisHypData: PbTransModel.h:174-187 *)
Definition nullHypothesisHypData : hypdata := {| ntarget := [0]; segs := []; cuts := [] |}.
(** extendHypDataIdx: PbTransModel.h:327-347 *)
Definition extendHypDataIdx (l r : nat) (phr : list nat) (h : hypdata) : hypdata :=
  let nt := ntarget h ++ phr in
  {| ntarget := nt; segs := segs h ++ [(l, r)]; cuts := cuts h ++ [usub (length nt) 1] |}.
(** numberOfUncoveredSrcWordsHypData: PbTransModel.h:316-324; isCompleteHypData :235-240; distToNullHyp: BasePbTransModel.h:325-328 *)
Definition srcWordsCovered (ss : list seg) : nat := fold_left (fun n s => n + (usub (snd s) (fst s) + 1)) ss 0.
Definition numberOfUncoveredSrcWords (n : nat) (h : hypdata) : nat := usub n (srcWordsCovered (segs h)).
Definition isComplete (n : nat) (h : hypdata) : bool := numberOfUncoveredSrcWords n h =? 0.
Definition distToNullHyp (n : nat) (h : hypdata) : nat :=
  usub (numberOfUncoveredSrcWords n nullHypothesisHypData) (numberOfUncoveredSrcWords n h).
(** obtainPredecessorHypData: PbTransModel.h:189-232.  Returns whether there is a predecessor, and the (new) data.
    None: pop_back on an empty vector, or a vector of cuts of another length than that of segments *)
Definition obtainPredecessorHypData (h : hypdata) : option (bool * hypdata) :=
  if length (ntarget h) <=? 1 then Some (false, h)
  else if length (cuts h) =? 0 then Some (false, h)
  else
    let k := length (cuts h) in
    let i := if k =? 1 then nth_error (cuts h) 0
             else match nth_error (cuts h) (k - 1), nth_error (cuts h) (k - 2) with Some a, Some b => Some (usub a b) | _, _ => None end in
    match i with
    | None => None
    | Some i => if (i <=? length (ntarget h)) && negb (length (segs h) =? 0)
                then Some (true, {| ntarget := firstn (length (ntarget h) - i) (ntarget h); segs := removelast (segs h); cuts := removelast (cuts h) |})
                else None
    end.
(** getLastSrcPosCoveredHypData: PbTransModel.h:369-378 *)
Definition getLastSrcPosCovered (h : hypdata) : nat := match segs h with [] => 0 | s :: r => snd (last r s) end.
(** isAligned: _phraseHypothesis.h:139-149 *)
Definition isAligned (h : hypdata) (j : nat) : bool := existsb (fun s => (fst s <=? j) && (j <=? snd s)) (segs h).
(** areAligned: _phraseHypothesis.h:152-176 *)
Fixpoint areAligned_loop (k : nat) (ss : list seg) (cs : list nat) (j i : nat) : option bool :=
  match ss with
  | [] => Some false
  | s :: r =>
      if (fst s <=? j) && (j <=? snd s) then
        match (if k =? 0 then Some 0 else nth_error cs (k - 1)), nth_error cs k with
        | Some lo, Some hi => if (lo + 1 <=? i) && (i <=? hi) then Some true else areAligned_loop (S k) r cs j i
        | _, _ => None
        end
      else areAligned_loop (S k) r cs j i
  end.
Definition areAligned (h : hypdata) (j i : nat) : option bool := areAligned_loop 0 (segs h) (cuts h) j i.
(** getTrgTransForSrcPhr: _phraseHypothesis.h:187-220; the last occurrence of the segment wins *)
Definition seg_eqb (a b : seg) : bool := (fst a =? fst b) && (snd a =? snd b).
Fixpoint find_last (s : seg) (i : nat) (ss : list seg) (k : option nat) : option nat :=
  match ss with [] => k | t :: r => find_last s (S i) r (if seg_eqb s t then Some i else k) end.
(** entries lo .. hi-1 of a vector *)
Fixpoint slice {A} (l : list A) (lo n : nat) : option (list A) :=
  match n with 0 => Some [] | S m => match nth_error l lo, slice l (S lo) m with Some x, Some r => Some (x :: r) | _, _ => None end end.
Definition getTrgTransForSrcPhr (h : hypdata) (s : seg) : option (list nat) :=
  match find_last s 0 (segs h) None with
  | None => Some []
  | Some k => match (if 0 <? k then nth_error (cuts h) (k - 1) else Some 0), nth_error (cuts h) k with
              | Some lo, Some hi => slice (ntarget h) (S lo) (hi - lo)
              | _, _ => None
              end
  end.

(** ** TranslationMetadata: the constraint map, in key order *)
(** srcPhrAffectedByConstraint: TranslationMetadata.h:272-286 *)
Definition srcPhrAffectedByConstraint (cs : constraints) (s : seg) : bool :=
  existsb (fun c => (fst s <=? snd (fst c)) && (fst (fst c) <=? snd s)) cs.
(** getTransForSrcPhr: TranslationMetadata.h:235-251 *)
Definition getTransForSrcPhr (cs : constraints) (s : seg) : list str :=
  match find (fun c => seg_eqb (fst c) s) cs with Some c => snd c | None => [] end.
Definition str_dec : forall a b : str, {a = b} + {a <> b} := list_eq_dec ascii_dec.
Definition str_eqb (a b : str) : bool := if str_dec a b then true else false.
(** the comparison loop of transViolatesSrcPhrConstraint :569-573: true if some word differs *)
Fixpoint cmp_loop (want : list str) (words : list str) (p : nat) : option bool :=
  match want with
  | [] => Some false
  | w :: r => match nth_error words p with
              | None => None
              | Some x => if str_eqb w x then cmp_loop r words (S p) else Some true
              end
  end.
(** transViolatesSrcPhrConstraint: TranslationMetadata.h:533-581 *)
Fixpoint related_loop (k : nat) (c1 : nat) (ss : list seg) (cs : list nat) : option (option (seg * seg)) :=
  match ss with
  | [] => Some None
  | s :: r => if (fst s <=? c1) && (c1 <=? snd s)
              then match (if k =? 0 then Some 1 else option_map S (nth_error cs (k - 1))), nth_error cs k with
                   | Some lo, Some hi => Some (Some (s, (lo, hi)))
                   | _, _ => None
                   end
              else related_loop (S k) c1 r cs
  end.
Definition transViolatesSrcPhrConstraint (c : seg * list str) (ss : list seg) (cs : list nat) (words : list str) : option bool :=
  match related_loop 0 (fst (fst c)) ss cs with
  | None => None
  | Some None => Some false
  | Some (Some (rs, (lo, hi))) =>
      if seg_eqb (fst c) rs
      then if length (snd c) =? usub (hi + 1) lo then cmp_loop (snd c) words (lo - 1) else Some true
      else Some true
  end.
(** transViolatesSrcPhrConstraints :512-530, translationSatisfiesConstraints :492-501 *)
Fixpoint transViolates (todo : constraints) (ss : list seg) (cs : list nat) (words : list str) : option bool :=
  match todo with
  | [] => Some false
  | c :: r => match transViolatesSrcPhrConstraint c ss cs words with
              | None => None
              | Some true => Some true
              | Some false => transViolates r ss cs words
              end
  end.
Definition translationSatisfiesConstraints (m : constraints) (ss : list seg) (cs : list nat) (words : list str) : option bool :=
  option_map negb (transViolates m ss cs words).

Section Model.
Variable srcSent : list str.                 (* pbtmInputVars.srcSentVec *)
Variable cm : constraints.                 (* the constraint map *)
Variable itos : nat -> str.
Variable stoi : str -> nat.
Variable UNK_WORD : nat.                     (* nlp_common/SpecialSymbols *)
Variable UNK_WORD_STR : str.
Variable unseen : str -> bool.               (* unseenSrcWord *)
Variable nbest : nat -> nat -> list (list nat).  (* getNbestTransForSrcPhraseCached(l,r,_,W), best first; see NbestModel *)
Variables A U : nat.                         (* pbTransModelPars.A, .U *)
Let n := length srcSent.

(** v[i]=x *)
Fixpoint vset {B} (i : nat) (x : B) (l : list B) : option (list B) :=
  match l, i with [] , _ => None | _ :: r, 0 => Some (x :: r) | y :: r, S i' => option_map (cons y) (vset i' x r) end.
(** the loop over k at _pbTransModel.h:1704-1708 *)
Fixpoint rep_unk (i : nat) (trgPhr : list str) (ws : list str) : option (list str) :=
  match trgPhr with
  | [] => Some ws
  | t :: r => match nth_error ws i with
              | None => None
              | Some w => if str_eqb w UNK_WORD_STR
                          then match vset i t ws with Some ws' => rep_unk (S i) r ws' | None => None end
                          else rep_unk (S i) r ws
              end
  end.
(** find the first target position aligned with source position j (the loops :1700-1712): [is] are the candidate 0-based positions *)
Fixpoint first_aligned (h : hypdata) (j : nat) (is : list nat) : option (option nat) :=
  match is with
  | [] => Some None
  | i :: r => match areAligned h j (i + 1) with None => None | Some true => Some (Some i) | Some false => first_aligned h j r end
  end.
Fixpoint rep_constraints (h : hypdata) (cs : constraints) (ws : list str) : option (list str) :=
  match cs with
  | [] => Some ws
  | c :: r => match first_aligned h (fst (fst c)) (seq 0 (length ws)) with
              | None => None
              | Some None => rep_constraints h r ws
              | Some (Some i) => match rep_unk i (getTransForSrcPhr cm (fst c)) ws with Some ws' => rep_constraints h r ws' | None => None end
              end
  end.
(** the loop over j at :1721-1728: copy the first source word aligned with the target position i *)
Fixpoint src_for (h : hypdata) (i : nat) (j : nat) (src : list str) : option (option str) :=
  match src with
  | [] => Some None
  | s :: r => match areAligned h (j + 1) (i + 1) with None => None | Some true => Some (Some s) | Some false => src_for h i (S j) r end
  end.
Fixpoint rep_src (h : hypdata) (i : nat) (ws : list str) : option (list str) :=
  match ws with
  | [] => Some []
  | w :: r => match (if str_eqb w UNK_WORD_STR then option_map (fun o => match o with Some s => s | None => w end) (src_for h i 0 srcSent) else Some w),
                    rep_src h (S i) r with
              | Some w', Some r' => Some (w' :: r')
              | _, _ => None
              end
  end.
(** getTransInPlainTextVecTs: _pbTransModel.h:1672-1732 *)
Definition getTransInPlainTextVec (h : hypdata) : option (list str) :=
  match rep_constraints h cm (map itos (tl (ntarget h))) with None => None | Some ws => rep_src h 0 ws end.

(** getTransForHypUncovGap: _pbTransModel.h:2455-2509 (the n-best table it fills; its boolean result is not used by expand) *)
Definition getTransForHypUncovGap (l r : nat) : option (list (list nat)) :=
  if srcPhrAffectedByConstraint cm (l, r)
  then let t := getTransForSrcPhr cm (l, r) in Some (if 0 <? length t then [map stoi t] else [])
  else if l =? r
       then match nth_error srcSent (l - 1) with None => None | Some w => Some (if unseen w then [[UNK_WORD]] else nbest l r) end
       else Some (nbest l r).
(** the loop over hypDataVec (:884-902): getHypDataVecForGap :1976-2020 extends the data; the filter on constraints *)
Fixpoint ext_loop (h : hypdata) (l r : nat) (phrs : list (list nat)) : option (list hypdata) :=
  match phrs with
  | [] => Some []
  | p :: t => let e := extendHypDataIdx l r p h in
              match getTransInPlainTextVec e with
              | None => None
              | Some words => match translationSatisfiesConstraints cm (segs e) (cuts e) words, ext_loop h l r t with
                              | Some b, Some rest => Some (if b then e :: rest else rest)
                              | _, _ => None
                              end
              end
  end.
(** the loop over y, with its break (:870-904) *)
Fixpoint y_loop (h : hypdata) (l : nat) (rs : list nat) : option (list hypdata) :=
  match rs with
  | [] => Some []
  | r :: t => if (A <? (r - l) + 1) && negb (srcPhrAffectedByConstraint cm (l, r)) then Some []
              else match getTransForHypUncovGap l r with
                   | None => None
                   | Some phrs => match ext_loop h l r phrs, y_loop h l t with Some a, Some b => Some (a ++ b) | _, _ => None end
                   end
  end.
(** the loop over x (:864-906) *)
Fixpoint x_loop (h : hypdata) (g : seg) (xs : list nat) : option (list hypdata) :=
  match xs with
  | [] => Some []
  | x :: t => match (if x <=? U then y_loop h (fst g + x) (seq (fst g + x) (snd g + 1 - (fst g + x))) else Some []), x_loop h g t with
              | Some a, Some b => Some (a ++ b)
              | _, _ => None
              end
  end.
Fixpoint gap_loop (h : hypdata) (gs : list seg) : option (list hypdata) :=
  match gs with
  | [] => Some []
  | g :: t => match x_loop h g (seq 0 (usub (snd g) (fst g) + 1)), gap_loop h t with Some a, Some b => Some (a ++ b) | _, _ => None end
  end.
(** expand: _pbTransModel.h:842-908.  srcSentLen is the number of uncovered words of the null hypothesis *)
Definition expand (h : hypdata) : option (list hypdata) :=
  gap_loop h (extract_gaps (numberOfUncoveredSrcWords n nullHypothesisHypData) (getKey (segs h))).

(** hypotheses obtained from the null hypothesis by successive expansions *)
Inductive reachable : hypdata -> Prop :=
| reach_null : reachable nullHypothesisHypData
| reach_exp : forall h l h', reachable h -> expand h = Some l -> In h' l -> reachable h'.
End Model.
