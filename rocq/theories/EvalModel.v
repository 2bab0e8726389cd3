(** /repo/src/stack_dec/MiraWer.cc, MiraGtm.cc, MiraChrF.cc, chrf.cc.  Scores are exact rationals: rounding of float and double is not modelled; counts are below 2^32.
    None is an access out of range. *)
From Coq Require Import Ascii String Arith ZArith QArith List Bool Permutation Sorted.
From Verif Require Import TextSpec TextModel VocabSpec BleuModel EvalSpec.
Import ListNotations.
Local Open Scope nat_scope.
(** ** MiraWer *)
(** MiraWer.cc:91-108 ed; the inner loop: [p] is prevCol[j], [ps] prevCol[j+1..], [c] is col[j] *)
Fixpoint ed_row (w : str) (s2 : list str) (p : nat) (ps : list nat) (c : nat) : list nat :=
  match s2, ps with
  | x :: s2', q :: ps' => let c' := Nat.min (Nat.min (q + 1) (c + 1)) (p + if str_dec w x then 0 else 1) in c' :: ed_row w s2' q ps' c'
  | _, _ => []
  end.
Fixpoint ed_rows (i : nat) (s1 s2 : list str) (prev : list nat) : list nat :=
  match s1 with
  | [] => prev
  | w :: r => ed_rows (S i) r s2 ((i + 1) :: ed_row w s2 (hd 0 prev) (tl prev) (i + 1))
  end.
Definition ed (s1 s2 : list str) : nat := last (ed_rows 0 s1 s2 (seq 0 (length s2 + 1))) 0.
(** :32-49 sentBackgroundScore, :52-67 sentScore *)
Definition wer_sent (cand ref : str) : option Q :=
  match stringToStringVector cand, stringToStringVector ref with
  | Some c, Some r => Some (if length r =? 0 then 0%Q else (1 - nq (ed c r) / nq (length r))%Q)
  | _, _ => None
  end.
Definition wer_background (cand ref : str) : option Q :=
  match stringToStringVector cand, stringToStringVector ref with
  | Some c, Some r => Some (if length r =? 0 then 0%Q else ((1 - nq (ed c r) / nq (length r)) * nq (length r))%Q)
  | _, _ => None
  end.
(** :70-88 corpusScore *)
Fixpoint wer_counts (cands refs : list str) (e n : nat) : option (nat * nat) :=
  match cands, refs with
  | [], _ => Some (e, n)
  | _ :: _, [] => None
  | c :: cs, r :: rs => match stringToStringVector c, stringToStringVector r with
                        | Some c', Some r' => wer_counts cs rs (e + ed c' r') (n + length r')
                        | _, _ => None
                        end
  end.
Definition wer_corpus (cands refs : list str) : option Q :=
  match wer_counts cands refs 0 0 with
  | Some (e, n) => Some (if n =? 0 then 0%Q else (1 - nq e / nq n)%Q)
  | None => None
  end.
(** ** MiraGtm *)
Record ngm := mkngm { g_sz : nat; g_c1 : nat; g_c2 : nat; g_r1 : nat; g_r2 : nat }.
(** MiraGtm.cc:62-92: the rows; [p] is prev[j-1] (None: j = 0 or i = 0, not read) *)
Fixpoint gtm_row (w : str) (i j : nat) (s2 : list str) (p : option nat) (ps : list nat) : list nat * list ngm :=
  match s2 with
  | [] => ([], [])
  | x :: s2' =>
      let c := if str_dec w x then match p with None => 1 | Some q => 1 + q end else 0 in
      let out := map (fun sz => mkngm sz (i + 1 - sz) i (j + 1 - sz) j) (rev (seq 1 c)) in
      let (row, l) := gtm_row w i (S j) s2' (match ps with [] => None | q :: _ => Some q end) (tl ps) in
      (c :: row, out ++ l)
  end.
Fixpoint gtm_rows (i : nat) (s1 s2 : list str) (prev : list nat) : list ngm :=
  match s1 with
  | [] => []
  | w :: r => let (row, l) := gtm_row w i 0 s2 None prev in l ++ gtm_rows (S i) r s2 row
  end.
(** :52-95; std::sort is not stable: any permutation ordered by descending size *)
Definition sorted_common_ngrams (s1 s2 : list str) (ngs : list ngm) : Prop :=
  Permutation (gtm_rows 0 s1 s2 []) ngs /\ StronglySorted (fun a b => g_sz b <= g_sz a) ngs.
(** :43-49 *)
Definition doIntersect (a b : nat) (s : list nat) : bool := existsb (fun i => if in_dec Nat.eq_dec i s then true else false) (seq a (S b - a)).
Fixpoint inserts (l : list nat) (s : list nat) : list nat :=
  match l with [] => s | i :: r => inserts r (if in_dec Nat.eq_dec i s then s else i :: s) end.
(** :133-149 *)
Fixpoint gtm_cover (ngs : list ngm) (m : nat) (cc rc : list nat) : nat :=
  match ngs with
  | [] => m
  | g :: r => if negb (doIntersect (g_c1 g) (g_c2 g) cc) && negb (doIntersect (g_r1 g) (g_r2 g) rc)
              then gtm_cover r (m + g_sz g) (inserts (seq (g_c1 g) (S (g_c2 g) - g_c1 g)) cc) (inserts (seq (g_r1 g) (S (g_r2 g) - g_r1 g)) rc)
              else gtm_cover r m cc rc
  end.
(** :98-156 statsForSentence: matches, candidate length, reference length *)
Definition gtm_stats (cand ref : list str) (st : nat * nat * nat) : Prop :=
  exists ngs, sorted_common_ngrams cand ref ngs /\ st = (gtm_cover ngs 0 [] [], length cand, length ref).
(** :159-168 scoreFromStats with beta = 1 (MiraGtm.h:45); None: not a number (0/0) *)
Definition gtm_score (st : nat * nat * nat) : option Q :=
  let '(m, c, r) := st in
  if (c =? 0) || (r =? 0) || (m =? 0) then None
  else let pre := (nq m / nq c)%Q in let rec_ := (nq m / nq r)%Q in Some (((1 + 1 * 1) * pre * rec_) / (1 * 1 * pre + rec_))%Q.
(** :188-200 sentScore, :171-185 sentBackgroundScore *)
Definition gtm_sent (cand ref : str) (x : option Q) : Prop :=
  exists c r st, stringToStringVector cand = Some c /\ stringToStringVector ref = Some r /\ gtm_stats c r st /\ x = gtm_score st.
Definition gtm_background (cand ref : str) (x : option Q) : Prop :=
  exists c r st, stringToStringVector cand = Some c /\ stringToStringVector ref = Some r /\ gtm_stats c r st /\ x = match gtm_score st with None => None | Some q => Some (q * nq (snd st))%Q end.
(** :203-223 corpusScore *)
Inductive gtm_corpus_stats : list str -> list str -> nat * nat * nat -> Prop :=
| gcs_nil : forall refs, gtm_corpus_stats [] refs (0, 0, 0)
| gcs_cons : forall c r cs rs c' r' m cl rl m2 cl2 rl2, stringToStringVector c = Some c' -> stringToStringVector r = Some r' -> gtm_stats c' r' (m, cl, rl) ->
    gtm_corpus_stats cs rs (m2, cl2, rl2) -> gtm_corpus_stats (c :: cs) (r :: rs) (m + m2, cl + cl2, rl + rl2).
Definition gtm_corpus (cands refs : list str) (x : option Q) : Prop := exists st, gtm_corpus_stats cands refs st /\ x = gtm_score st.
(** ** chrF *)
Definition MAX_NGRAM_LENGTH := 4.
Definition BETA : Q := 3.
(** chrf.cc:180-259 count_ngrams: the two pairs of loops are those of bleu.cc:211-231 (BleuModel.loop_i) with characters in place of words *)
Definition count_ngrams (ref sys : str) (n : nat) : option (Q * Q) :=
  let systotal := if length sys <? n then 0 else length sys - n + 1 in
  let reftotal := if length ref <? n then 0 else length ref - n + 1 in
  match loop_i ascii ascii_dec sys ref n systotal 0 (repeat false reftotal) 0 with
  | None => None
  | Some countsys =>
      match loop_i ascii ascii_dec ref sys n reftotal 0 (repeat false systotal) 0 with
      | None => None
      | Some countref => let count := Nat.min countref countsys in
                         Some (if systotal =? 0 then 1%Q else (nq count / nq systotal)%Q, if reftotal =? 0 then 1%Q else (nq count / nq reftotal)%Q)
      end
  end.
(** :159-169 *)
Fixpoint chrf_sum (ref sys : str) (ns : list nat) (p r : Q) : option (Q * Q) :=
  match ns with
  | [] => Some (p, r)
  | n :: ns' => match count_ngrams ref sys n with None => None | Some (a, b) => chrf_sum ref sys ns' (p + a)%Q (r + b)%Q end
  end.
(** :133-177 calculate_chrf (CONSIDER_WHITESPACE is true, chrf.h:40) *)
Definition calculate_chrf (refSentence sysSentence : str) : option Q :=
  match stringToStringVector refSentence, stringToStringVector sysSentence with
  | Some rv, Some sv =>
      let ref := stringVectorToString rv in
      let sys := stringVectorToString sv in
      if (length ref =? 0) && (length sys =? 0) then Some 1%Q
      else if (length ref =? 0) || (length sys =? 0) then Some 0%Q
      else match chrf_sum ref sys (seq 1 (Nat.min MAX_NGRAM_LENGTH (length ref))) 0 0 with
           | None => None
           | Some (p0, r0) =>
               let p := (p0 / nq (Nat.min MAX_NGRAM_LENGTH (length sys)))%Q in
               let r := (r0 / nq (Nat.min MAX_NGRAM_LENGTH (length ref)))%Q in
               Some (if Qeq_bool p 0 || Qeq_bool r 0 then 0%Q else ((1 + BETA * BETA) * (p * r / (BETA * BETA * p + r)))%Q)
           end
  | _, _ => None
  end.
(** MiraChrF.cc:42-61 *)
Fixpoint chrf_total (cands refs : list str) (t : Q) : option Q :=
  match cands, refs with
  | [], _ => Some t
  | _ :: _, [] => None
  | c :: cs, r :: rs => match calculate_chrf r c with None => None | Some x => chrf_total cs rs (t + x)%Q end
  end.
Definition chrf_corpus (cands refs : list str) : option (option Q) :=  (* Some None: 0/0 *)
  match chrf_total cands refs 0 with
  | None => None
  | Some t => Some (if length cands =? 0 then None else Some (t / nq (length cands))%Q)
  end.
