(** The incremental language model: src/incr_models/lm_ienc.cc, vecx_x_incr_enc.h (word codes), vecx_x_incr_cptable.h (count table),
    _incrEncCondProbModel.h and _incrNgramLM.h (string interface, states, load/print), _incrJelMerNgramLM.h (interpolated
    probabilities), nlp_common/BaseNgramLM.h (sentence probability, perplexity).
    Counts and probabilities (C++ float/double) are exact rationals; a Count is incremented by exp(log c), taken to be c, and a count read
    back through exp(log count) is taken to be the count; SMALL_LG_NUM stands for log 0.  WordIndex (unsigned int) is nat. *)
From Coq Require Import Ascii String Arith NArith QArith Qround List Bool.
From Verif Require Import AMap ContainerModel TrieIterModel.
Import ListNotations.
Open Scope nat_scope.

Definition obind {A B} (o : option A) (f : A -> option B) : option B := match o with Some a => f a | None => None end.
Notation "'do' x <- a ; b" := (obind a (fun x => b)) (at level 200, x name, a at level 100, b at level 200).

(** ---------- word codes ---------- *)
(** LM_Defs.h:67-74 *)
Definition UNK_SYMBOL := 0. Definition S_BEGIN := 1. Definition S_END := 2. Definition SP_SYM1_LM := 3.
Definition UNK_STR := "<unk>"%string. Definition BOS_STR := "<s>"%string. Definition EOS_STR := "</s>"%string. Definition SP_STR := "<sp_sym1>"%string.
(** vecx_x_incr_enc.h:111-113 *)
Record enc := mkenc { h2x : list (string * nat); x2h : list (nat * string); xobj : nat }.
(** addHTrgCode vecx_x_incr_enc.h:282-287 *)
Definition enc_put (w : string) (i : nat) (e : enc) : enc :=
  mkenc (aset string_dec w i (h2x e)) (aset Nat.eq_dec i w (x2h e)) (xobj e).
(** lm_ienc::lm_ienc lm_ienc.cc:33-48 *)
Definition lm_enc0 : enc :=
  let e := enc_put SP_STR SP_SYM1_LM (enc_put EOS_STR S_END (enc_put BOS_STR S_BEGIN (enc_put UNK_STR UNK_SYMBOL (mkenc [] [] 0)))) in
  mkenc (h2x e) (x2h e) SP_SYM1_LM.
Definition enc_find (w : string) (e : enc) : option nat := aget string_dec w (h2x e).
(** HighTrg_to_Trg lm_ienc.cc:77-93 *)
Definition HighTrg_to_Trg (w : string) (e : enc) : bool * nat :=
  match enc_find w e with Some i => (true, i) | None => (false, UNK_SYMBOL) end.
(** HighSrc_to_Src lm_ienc.cc:51-74 *)
Fixpoint HighSrc_to_Src (hs : list string) (e : enc) : bool * list nat :=
  match hs with
  | [] => (true, [])
  | w :: r => let (ok, s) := HighSrc_to_Src r e in
              match enc_find w e with Some i => (ok, i :: s) | None => (false, UNK_SYMBOL :: s) end
  end.
(** Trg_to_HighTrg vecx_x_incr_enc.h:197-211, Src_to_HighSrc :173-194; None = "return false" *)
Definition Trg_to_HighTrg (i : nat) (e : enc) : option string := aget Nat.eq_dec i (x2h e).
Fixpoint Src_to_HighSrc (s : list nat) (e : enc) : option (list string) :=
  match s with [] => Some [] | i :: r => do w <- Trg_to_HighTrg i e ; do hs <- Src_to_HighSrc r e ; Some (w :: hs) end.
(** genHTrgCode vecx_x_incr_enc.h:239-253 *)
Definition genHTrgCode (w : string) (e : enc) : nat * enc :=
  match enc_find w e with Some i => (i, e) | None => let x := S (xobj e) in (x, mkenc (h2x e) (x2h e) x) end.
(** genHSrcCode vecx_x_incr_enc.h:214-236: every unknown position gets a code of its own *)
Fixpoint genHSrcCode (hs : list string) (e : enc) : list nat * enc :=
  match hs with
  | [] => ([], e)
  | w :: r => let (i, e1) := genHTrgCode w e in let (s, e2) := genHSrcCode r e1 in (i :: s, e2)
  end.
(** addHSrcCode vecx_x_incr_enc.h:256-271; the lengths always agree here *)
Fixpoint addHSrcCode (hs : list string) (s : list nat) (e : enc) : enc :=
  match hs, s with w :: hs', i :: s' => addHSrcCode hs' s' (enc_put w i e) | _, _ => e end.
(** the idiom "if(!HighTrg_to_Trg(ht,t)) {t=genHTrgCode(ht); addHTrgCode(ht,t);}" = _incrEncCondProbModel::addHTrgCode
    (_incrEncCondProbModel.h, "addHTrgCode") and _incrNgramLM::addSymbol (_incrNgramLM.h:352-355) *)
Definition trg_code (w : string) (e : enc) : nat * enc :=
  match HighTrg_to_Trg w e with
  | (true, i) => (i, e)
  | (false, _) => let (i, e1) := genHTrgCode w e in (i, enc_put w i e1)
  end.
(** the same idiom for histories, _incrEncCondProbModel.h:205-209 and addHSrcCode *)
Definition src_code (hs : list string) (e : enc) : list nat * enc :=
  match HighSrc_to_Src hs e with
  | (true, s) => (s, e)
  | (false, _) => let (s, e1) := genHSrcCode hs e in (s, addHSrcCode hs s e1)
  end.
(** existSymbol _incrNgramLM.h:342-347, stringToWordIndex :366-373, wordIndexToString :377-385, getVocabSize :359-362 with sizeTrg
    vecx_x_incr_enc.h:341-344 *)
Definition existSymbol (w : string) (e : enc) : bool := fst (HighTrg_to_Trg w e).
Definition stringToWordIndex (w : string) (e : enc) : nat := match HighTrg_to_Trg w e with (true, i) => i | (false, _) => UNK_SYMBOL end.
Definition wordIndexToString (i : nat) (e : enc) : string := match Trg_to_HighTrg i e with Some w => w | None => UNK_STR end.
Definition getVocabSize (e : enc) : nat := length (h2x e).
(** getBosId :389-397, getEosId :401-409 *)
Definition getBosId (e : enc) : nat := match enc_find BOS_STR e with Some i => i | None => UNK_SYMBOL end.
Definition getEosId (e : enc) : nat := match enc_find EOS_STR e with Some i => i | None => UNK_SYMBOL end.
(** print vecx_x_incr_enc.h:312-331 and load :290-309 of the vocabulary file, at the level of its (word, code) lines.  The failed read at end
    of file stores the last pair again, which changes nothing.  load does not touch x_object. *)
Definition enc_print (e : enc) : list (string * nat) := h2x e.
Definition enc_load (ls : list (string * nat)) (e : enc) : enc := fold_left (fun e p => enc_put (fst p) (snd p) e) ls e.

(** ---------- count table ---------- *)
(** vecx_x_incr_cptable.h:128-130 with SRC_INFO = SRCTRG_INFO = Count, default 0 *)
Record tab := mktab { tst : trie nat Q; tsi : trie nat Q; ts0 : Q }.
Definition tab0 : tab := mktab (tempty (0%Q)) (tempty (0%Q)) 0%Q.
Notation tfind := (trie_find Nat.ltb).
Notation tinsert := (trie_insert Nat.ltb (0%Q)).
(** addSrcInfo vecx_x_incr_cptable.h:165-177, addSrcTrgInfo :181-197, addTableEntry :155-161 *)
Definition addSrcInfo (s : list nat) (x : Q) (t : tab) : option tab :=
  match s with [] => Some (mktab (tst t) (tsi t) x) | _ => do i <- tinsert s x (tsi t) ; Some (mktab (tst t) i (ts0 t)) end.
Definition addSrcTrgInfo (s : list nat) (w : nat) (x : Q) (t : tab) : option tab :=
  do i <- tinsert (s ++ [w]) x (tst t) ; Some (mktab i (tsi t) (ts0 t)).
Definition addTableEntry (s : list nat) (w : nat) (cs cst : Q) (t : tab) : option tab :=
  do t1 <- addSrcInfo s cs t ; addSrcTrgInfo s w cst t1.
(** the "find, then insert or increment in place" of incrCountsOfEntryLog :216-241; the in-place increment of a found node is written as an
    insertion at its (existing) key *)
Definition bump (k : list nat) (c : Q) (t : trie nat Q) : option (trie nat Q) :=
  do r <- tfind k t ; match r with None => tinsert k (0 + c)%Q t | Some d => tinsert k (d + c)%Q t end.
(** incrCountsOfEntryLog :201-247 as called from incrCountsOfEntry BaseIncrCondProbTable.h:147-152 *)
Definition incrCountsOfEntry (s : list nat) (w : nat) (c : Q) (t : tab) : option tab :=
  do st <- bump (s ++ [w]) c (tst t) ;
  match s with
  | [] => Some (mktab st (tsi t) (ts0 t + c)%Q)
  | _ => do si <- bump s c (tsi t) ; Some (mktab st si (ts0 t))
  end.
(** cSrcTrg :546-568, cSrc :572-589 *)
Definition cSrcTrg (s : list nat) (w : nat) (t : tab) : option Q :=
  do r <- tfind (s ++ [w]) (tst t) ; Some (match r with None => 0%Q | Some d => d end).
Definition cSrc (s : list nat) (t : tab) : option Q :=
  match s with [] => Some (ts0 t) | _ => do r <- tfind s (tsi t) ; Some (match r with None => 0%Q | Some d => d end) end.
(** infSrcTrg :251-288 and pTrgGivenSrc :352-373 *)
Definition tab_p (s : list nat) (w : nat) (t : tab) : option Q :=
  do cs <- cSrc s t ; do r <- tfind (s ++ [w]) (tst t) ;
  Some (match r with None => 0%Q | Some d => if Qeq_bool cs 0 then 0%Q else (d / cs)%Q end).
(** cTrg :593-612; SMALL_LG_NUM = -99999 (MathDefs.h:40) *)
Definition cTrg (w : nat) (t : tab) : option Q :=
  do l <- trie_entries (tst t) ;
  Some (fold_left (fun acc e =>
          if Qle_bool (snd e) 0 then acc
          else if 1 <? length (fst e) then (if hd 0 (fst e) =? w then (acc + snd e)%Q else acc) else acc) l (-99999 # 1)%Q).
(** getEntriesForSource :430-464: the entries as (target, (c_s, c_st)); None: siPtr is NULL when dereferenced *)
Fixpoint entries_loop (s : list nat) (si : option Q) (l : list (list nat * Q)) : option (list (nat * (Q * Q))) :=
  match l with
  | [] => Some []
  | (k, c) :: r =>
      if Qeq_bool c 0 then entries_loop s si r
      else if 1 <? length k then
        if list_eq_dec Nat.eq_dec (removelast k) s
        then match si with None => None | Some cs => do l' <- entries_loop s si r ; Some ((last k 0, (cs, c)) :: l') end
        else entries_loop s si r
      else entries_loop s si r
  end.
Definition getEntriesForSource (s : list nat) (t : tab) : option (list (nat * (Q * Q))) :=
  do si <- tfind s (tsi t) ; do l <- trie_entries (tst t) ; entries_loop s si l.

(** ---------- language model, string interface ---------- *)
Record lm := mklm { lenc : enc; ltab : tab; lorder : N }.
Definition lm0 : lm := mklm lm_enc0 tab0 3%N.
(** incrCountsOfNgramStr _incrNgramLM.h:203-221, incrCountsOfNgram :225-230 *)
Fixpoint add_symbols (ws : list string) (e : enc) : enc :=
  match ws with [] => e | w :: r => add_symbols r (if existSymbol w e then e else snd (trg_code w e)) end.
Definition incrCountsOfNgramStr (w : string) (rq : list string) (c : Q) (m : lm) : option lm :=
  let e := add_symbols rq (add_symbols [w] (lenc m)) in
  do t <- incrCountsOfEntry (map (fun x => stringToWordIndex x e) rq) (stringToWordIndex w e) c (ltab m) ;
  Some (mklm e t (lorder m)).
(** addTableEntryHigh _incrEncCondProbModel.h:200-216 *)
Definition addTableEntryHigh (hs : list string) (ht : string) (cs cst : Q) (m : lm) : option lm :=
  let (s, e1) := src_code hs (lenc m) in let (w, e2) := trg_code ht e1 in
  do t <- addTableEntry s w cs cst (ltab m) ; Some (mklm e2 t (lorder m)).
(** cNgramStr _incrNgramLM.h:193-199 (lcHSrcHTrg), cHistStr :185-189 (lcHSrc) *)
Definition cNgramStr (w : string) (rq : list string) (m : lm) : option Q :=
  match HighSrc_to_Src rq (lenc m), HighTrg_to_Trg w (lenc m) with
  | (true, s), (true, t) => cSrcTrg s t (ltab m)
  | _, _ => Some 0%Q
  end.
Definition cHistStr (rq : list string) (m : lm) : option Q :=
  match HighSrc_to_Src rq (lenc m) with (true, s) => cSrc s (ltab m) | _ => Some 0%Q end.

(** load_ngrams _incrNgramLM.h:460-513 at the level of parsed lines: None is a blank line (NF = 0), Some (history, word, c_s, c_st) a line with
    NF = length history + 3 fields.  (Lines of one or two fields are not modelled.) *)
Definition ngram_line : Type := (list string * string * Q * Q)%type.
Definition line_NF (l : option ngram_line) : N := match l with None => 0 | Some (hs, _, _, _) => N.of_nat (length hs) + 3 end%N.
(** unsigned subtraction of 2 *)
Definition minus2_u32 (x : N) : N := ((x + 4294967296 - 2) mod 4294967296)%N.
(** the first pass :484-487 and the last statement :510 *)
Definition load_order (ls : list (option ngram_line)) (old : N) : N :=
  let o := fold_left (fun o l => if (o <? minus2_u32 (line_NF l))%N then minus2_u32 (line_NF l) else o) ls 0%N in
  if (o =? 0)%N then old else o.
Fixpoint load_lines (ls : list (option ngram_line)) (m : lm) : option lm :=
  match ls with
  | [] => Some m
  | None :: r => load_lines r m
  | Some (hs, ht, cs, cst) :: r => do m1 <- addTableEntryHigh hs ht cs cst m ; load_lines r m1
  end.
Definition lm_load (ls : list (option ngram_line)) (m : lm) : option lm :=
  do m1 <- load_lines ls (mklm (lenc m) tab0 (lorder m)) ; Some (mklm (lenc m1) (ltab m1) (load_order ls (lorder m))).
(** print _incrNgramLM.h:555-594; None also stands for a code without a string, after which the C++ prints stale text.  getSrcInfo
    vecx_x_incr_cptable.h:292-319.  Numbers are taken to be printed exactly. *)
Fixpoint print_loop (m : lm) (l : list (list nat * Q)) : option (list ngram_line) :=
  match l with
  | [] => Some []
  | (k, c) :: r =>
      if (0 <? length k) && negb (Qle_bool c 0) then
        do hs <- Src_to_HighSrc (removelast k) (lenc m) ; do ht <- Trg_to_HighTrg (last k 0) (lenc m) ;
        do cs <- cSrc (removelast k) (ltab m) ; do r' <- print_loop m r ; Some ((hs, ht, cs, c) :: r')
      else print_loop m r
  end.
Definition lm_print (m : lm) : option (list ngram_line) := do l <- trie_entries (tst (ltab m)) ; print_loop m l.

(** ---------- Jelinek-Mercer interpolation ---------- *)
(** _incrJelMerNgramLM.h:67-74 *)
Record jm := mkjm { jweights : list Q; jbuckets : nat; jsize : Q }.
Definition jm0 : jm := mkjm [1#2; 1#2; 1#2]%Q 1 0%Q.
(** getJelMerWeight :302-322; None: weights[] out of range, or a bucket size for which the cast to unsigned is undefined *)
Definition jm_weight (j : jm) (s : list nat) (t : tab) : option Q :=
  if jbuckets j =? 1 then nth_error (jweights j) (length s)
  else
    do c <- cSrc s t ;
    if Qle_bool (jsize j) 0 then None
    else let b := Z.to_nat (Qfloor (c / jsize j)) in
         let b := if jbuckets j - 1 <? b then jbuckets j - 1 else b in
         nth_error (jweights j) (length s * jbuckets j + b).
(** pTrgGivenSrcRec :137-161 *)
Fixpoint jm_rec (j : jm) (v : nat) (t : tab) (s : list nat) (w : nat) : option Q :=
  match s with
  | [] => do a <- jm_weight j s t ; if v =? 0 then None else
          do p <- tab_p s w t ; Some (a * p + (1 - a) * (1 / inject_Z (Z.of_nat v)))%Q
  | _ :: s' => do a <- jm_weight j s t ; do p <- tab_p s w t ; do q <- jm_rec j v t s' w ; Some (a * p + (1 - a) * q)%Q
  end.
(** the removal of extra BOS symbols in pTrgGivenSrc :108-132 *)
Fixpoint lead (b : nat) (s : list nat) : nat := match s with x :: r => if x =? b then S (lead b r) else 0 | [] => 0 end.
Definition strip_bos (b : nat) (s : list nat) : list nat :=
  if 2 <=? length s then skipn (lead b s - 1) s else s.
Definition jm_p (j : jm) (m : lm) (s : list nat) (w : nat) : option Q :=
  jm_rec j (getVocabSize (lenc m)) (ltab m) (strip_bos (getBosId (lenc m)) s) w.
