(** /repo/src/sw_models/_incrHmmAligModel.cc, _incrHmmP0AligModel.cc, CachedHmmAligLgProb.cc: probabilities, Viterbi, forward, backward and
    expected values of the HMM alignment model.  double/float as real numbers.  SMALL_LG_NUM is the finite number -99999 here, as in the code.
    C's log(0) is -infinity where Coq's ln 0 is 0, so that the model is the code only for smoothing factors strictly between 0 and 1, a
    non-empty target vocabulary and (P0 variant) 0<p0<1; the theorems assume that.  The tables are read-only here: IncrLexTable (property C29)
    and IncrHmmAligTable as partial functions. Word indices are N, NULL_WORD is 0 (StatModelDefs.h:68); positions (unsigned) are nat.
    Access outside a vector is None. *)
From Coq Require Import Reals NArith Arith List Bool.
From Verif Require Import MathModel LogNum AligSpec AligModel.
Import ListNotations.
Open Scope R_scope.
Definition NULL_WORD : N := 0%N.
(** [p0]: None for _incrHmmAligModel, Some hmm_p0 for _incrHmmP0AligModel *)
Record hmm := { lexNumer : N -> N -> option R; lexDenom : N -> option R;
                aligNumer : nat -> nat -> nat -> option R (* prev_i slen i *); aligDenom : nat -> nat -> option R (* prev_i slen *);
                vocab : nat (* getTrgVocabSize() *); lsf : R; asf : R; p0 : option R }.
(** _incrHmmAligModel.cc:1213-1226 *)
Definition isValidAlig (ip slen i : nat) : bool :=
  if (i <=? slen)%nat then true else if (ip =? 0)%nat then true
  else let i := (i - slen)%nat in let ip := if (slen <? ip)%nat then (ip - slen)%nat else ip in if (i =? ip)%nat then true else false.
(** :1229-1242 *)
Definition isNullAlig (ip slen i : nat) : bool :=
  if (i <=? slen)%nat then false else if (ip =? 0)%nat then true
  else let i := (i - slen)%nat in let ip := if (slen <? ip)%nat then (ip - slen)%nat else ip in if (i =? ip)%nat then true else false.
(** :1245-1254 *)
Definition getModifiedIp (ip slen i : nat) : nat := if (i <=? slen)%nat && (slen <? ip)%nat then (ip - slen)%nat else ip.
(** :289-309; returns prev_i and i *)
Definition nullAligSpecialPar (ip slen : nat) : nat * nat :=
  if (ip =? 0)%nat then (0%nat, (slen + 1)%nat)
  else let q := if (slen <? ip)%nat then (ip - slen)%nat else ip in (q, (q + slen)%nat).
Section M.
Variable M : hmm.
(** :174-198 *)
Definition unsmoothed_logpts (s t : N) : R :=
  match lexNumer M s t with Some n => match lexDenom M s with Some d => n - d | None => SMALL_LG_NUM end | None => SMALL_LG_NUM end.
(** :201-207 *)
Definition logpts (s t : N) : R := lns_sumlog (ln (1 - lsf M) + unsmoothed_logpts s t) (ln (lsf M) + ln (1 / INR (vocab M))).
Definition tableRatio (prev slen i : nat) : option R :=
  match aligNumer M prev slen i with Some n => match aligDenom M prev slen with Some d => Some (n - d) | None => None end | None => None end.
(** :225-266; the P0 variant _incrHmmP0AligModel.cc:149-198 *)
Definition unsmoothed_logaProb (prev_i slen i : nat) : R :=
  if isValidAlig prev_i slen i then
    let null := isNullAlig prev_i slen i in
    let mip := getModifiedIp prev_i slen i in
    match p0 M with
    | None => let '(q, i') := if null then nullAligSpecialPar prev_i slen else (mip, i) in
              match tableRatio q slen i' with Some r => r | None => SMALL_LG_NUM end
    | Some p => if null then (if (prev_i =? 0)%nat then ln p - ln (INR slen) else ln p)
                else match tableRatio mip slen i with Some r => r + ln (1 - p) | None => SMALL_LG_NUM end
    end
  else SMALL_LG_NUM.
(** :312-332 *)
Definition logaProb (prev_i slen i : nat) : R :=
  let lp := unsmoothed_logaProb prev_i slen i in
  if isValidAlig prev_i slen i then
    lns_sumlog (ln (1 - asf M) + lp)
      (if (prev_i =? 0)%nat then ln (asf M) + ln (1 / INR (2 * slen)) else ln (asf M) + ln (1 / INR (slen + 1)))
  else lp.
(** :353-364 *)
Definition extendWithNullWord (s : list N) : list N := s ++ repeat NULL_WORD (length s).
(** :373-383 *)
Definition getSrcLen (ns : list N) : nat := length (filter (fun w => negb (N.eqb w NULL_WORD)) ns).
(** :403-409, SwDefs.h:48 *)
Definition sentenceLengthIsOk (l : list N) : bool := negb (length l =? 0)%nat && (length l <=? 200)%nat.

(** ---- CachedHmmAligLgProb.cc: vectors of vectors of vectors; 99 marks an undefined entry *)
Definition cache := list (list (list R)).
Definition INVALID : R := 99.
(** while(l.size()<=k) l.push_back(d) *)
Definition grow {A} (d : A) (k : nat) (l : list A) : list A := l ++ repeat d (S k - length l).
Fixpoint setn {A} (k : nat) (v : A) (l : list A) : list A := match l, k with [], _ => [] | _ :: r, O => v :: r | x :: r, S k' => x :: setn k' v r end.
(** :102-107 get; None: out of range *)
Definition c_get (c : cache) (p s i : nat) : option R :=
  match nth_error c p with Some a => match nth_error a s with Some b => nth_error b i | None => None end | None => None end.
(** :55-71 *)
Definition isDefined (c : cache) (p s i : nat) : bool :=
  match c_get c p s i with Some v => if Rle_dec INVALID v then false else true | None => false end.
(** :74-93 *)
Definition set_boundary_check (c : cache) (p s i : nat) (lp : R) : cache :=
  let c1 := grow [] p c in
  let a := grow [] s (nth p c1 []) in
  let b := grow INVALID i (nth s a []) in
  setn p (setn s (setn i lp b) a) c1.
(** :94-100 set, unchecked *)
Definition c_set (c : cache) (p s i : nat) (lp : R) : option cache :=
  match c_get c p s i with None => None | Some _ => Some (setn p (setn s (setn i lp (nth s (nth p c []) [])) (nth p c [])) c) end.
(** :33-52 *)
Definition makeRoomGivenNSrcSentLen (n : nat) (c : cache) : cache :=
  if (length c <=? n)%nat then map (fun a => map (grow INVALID n) (grow [] n a)) (grow [] n c) else c.
(** _incrHmmAligModel.cc:269-286 *)
Definition cached_logaProb (c : cache) (p s i : nat) : option (R * cache) :=
  match c_get c p s i with
  | None => None
  | Some d => if Rlt_dec d INVALID then Some (d, c) else match c_set c p s i (logaProb p s i) with Some c' => Some (logaProb p s i, c') | None => None end
  end.
(** :1486-1490, 1498-1504: "update cached alignment log-probs if required", then get *)
Definition look (c : cache) (p s i : nat) : option (R * cache) :=
  let c := if isDefined c p s i then c else set_boundary_check c p s i (logaProb p s i) in
  match c_get c p s i with Some v => Some (v, c) | None => None end.

(** ---- Viterbi, :1452-1514.  Both matrices by columns: the column of the target position j lists (vitMatrix[i][j], predMatrix[i][j]) for i=1..
    (row 0 holds SMALL_LG_NUM and 0 and is only read by the back-tracking).  [lx i] is cached_logpts[i][j]. *)
Definition col := list (R * nat).
Fixpoint vit_inner (slen : nat) (prev : col) (it i : nat) (x : R) (best : R) (pred : nat) (c : cache) : option (R * nat * cache) :=
  match prev with
  | [] => Some (best, pred, c)
  | v :: r => match look c it slen i with
              | None => None
              | Some (a, c) => let lp := fst v + a + x in
                               if Rlt_dec best lp then vit_inner slen r (S it) i x lp it c else vit_inner slen r (S it) i x best pred c
              end
  end.
(** one column; [prev]: the previous column, None for j==1 *)
Fixpoint vit_col (slen : nat) (prev : option col) (lx : nat -> R) (is_ : list nat) (c : cache) : option (col * cache) :=
  match is_ with
  | [] => Some ([], c)
  | i :: r =>
    let cell := match prev with
                | None => match look c 0 slen i with Some (a, c) => Some (a + lx i, 0%nat, c) | None => None end
                | Some p => vit_inner slen p 1 i (lx i) SMALL_LG_NUM 0 c
                end in
    match cell with
    | None => None
    | Some (v, p, c) => match vit_col slen prev lx r c with Some (l, c) => Some ((v, p) :: l, c) | None => None end
    end
  end.
(** all columns, the last one first *)
Fixpoint vit_cols (slen : nat) (ns : list N) (acc : list col) (t : list N) (c : cache) : option (list col * cache) :=
  match t with
  | [] => Some (acc, c)
  | w :: r => match vit_col slen (match acc with [] => None | p :: _ => Some p end) (fun i => logpts (nth (i - 1) ns NULL_WORD) w) (seq 1 (length ns)) c with
              | Some (p, c) => vit_cols slen ns (p :: acc) r c
              | None => None
              end
  end.
(** :1537-1548, last column: the first best row *)
Fixpoint best_row (l : col) (i : nat) (b : R * nat) : R * nat :=
  match l with [] => b | v :: r => best_row r (S i) (if Rlt_dec (fst b) (fst v) then (fst v, i) else b) end.
(** :1550-1554: from the last column to the first; predMatrix[0][j] is 0 *)
Fixpoint back (cols : list col) (b : nat) : option (list nat) :=
  match cols with
  | [] => Some []
  | [_] => Some [b]
  | l :: r => match (match b with O => Some 0%nat | S k => option_map snd (nth_error l k) end) with
              | None => None
              | Some b' => option_map (fun q => q ++ [b]) (back r b')
              end
  end.
(** :1517-1557 bestAligGivenVitMatricesRaw (lines 1521-1528, an empty sentence, do not arise: sentenceLengthIsOk) and :1560-1575 *)
Definition bestAlig (slen : nat) (cols : list col) : option (R * list nat) :=
  match cols with
  | (v :: l) :: _ => let '(lp, b) := best_row l 2 (fst v, 1%nat) in
                     option_map (fun a => (lp, map (fun i => if (slen <? i)%nat then 0%nat else i) a)) (back cols b)
  | _ => None
  end.
Variable slm : nat -> nat -> R.     (* sentLenLgProb *)
(** :1405-1439 obtainBestAlignmentCached; obtainBestAlignment (:1396-1402) starts from an empty cache *)
Definition obtainBestAlignmentCached (s t : list N) (c : cache) : option (R * wam * cache) :=
  if sentenceLengthIsOk s && sentenceLengthIsOk t then
    let ns := extendWithNullWord s in
    match vit_cols (getSrcLen ns) ns [] t c with
    | None => None
    | Some (cols, c) =>
      match bestAlig (length s) cols with
      | None => None
      | Some (lp, al) => match putAligVec (w_init (length s) (length t)) al with
                         | Some A => Some (slm (length s) (length t) + lp, A, c)
                         | None => None
                         end
      end
    end
  else Some (SMALL_LG_NUM, w_init (length s) (length t), c).
Definition obtainBestAlignment (s t : list N) : option (R * wam) :=
  match obtainBestAlignmentCached s t [] with Some (lp, A, _) => Some (lp, A) | None => None end.

(** ---- forward, :1618-1681 and calcAlphaMatrix :638-676 (which reads the cached values, property C73): columns of the matrix *)
Fixpoint sum_inner (la : nat -> R) (prev : list R) (it : nat) (x acc : R) : R :=
  match prev with [] => acc | v :: r => sum_inner la r (S it) x (lns_sumlog (v + la it + x) acc) end.
Definition fwd_cell (slen : nat) (prev : list R) (i : nat) (x : R) : R :=
  match prev with [] => 0 | v :: r => sum_inner (fun it => logaProb it slen i) r 2 x (v + logaProb 1 slen i + x) end.
Definition fwd_first (slen : nat) (ns : list N) (w : N) : list R := map (fun i => logaProb 0 slen i + logpts (nth (i - 1) ns NULL_WORD) w) (seq 1 (length ns)).
Definition fwd_next (slen : nat) (ns : list N) (prev : list R) (w : N) : list R :=
  map (fun i => fwd_cell slen prev i (logpts (nth (i - 1) ns NULL_WORD) w)) (seq 1 (length ns)).
(** the columns j=1.. in order *)
Fixpoint fwd_cols (slen : nat) (ns : list N) (prev : option (list R)) (t : list N) : list (list R) :=
  match t with
  | [] => []
  | w :: r => let c := match prev with None => fwd_first slen ns w | Some p => fwd_next slen ns p w end in c :: fwd_cols slen ns (Some c) r
  end.
(** :1684-1703 lgProbGivenForwardMatrix *)
Definition lgProbGivenForward (l : list R) : R := match l with [] => SMALL_LG_NUM | v :: r => fold_left lns_sumlog r v end.
Definition forwardAlgorithm (ns t : list N) : R := lgProbGivenForward (last (fwd_cols (getSrcLen ns) ns None t) []).
(** :1588-1615 *)
Definition calcLgProb (s t : list N) : R :=
  if sentenceLengthIsOk s && sentenceLengthIsOk t then slm (length s) (length t) + forwardAlgorithm (extendWithNullWord s) t else SMALL_LG_NUM.
(** :679-716 calcBetaMatrix: columns j=1.. in order *)
Definition beta_cell (slen : nat) (ns : list N) (next : list R) (i : nat) (w : N) : R :=
  match next with
  | [] => 0
  | _ => let lp := fun it => nth (it - 1) next 0 + logaProb i slen it + logpts (nth (it - 1) ns NULL_WORD) w in
         fold_left (fun acc it => lns_sumlog (lp it) acc) (seq 2 (length next - 1)) (lp 1%nat)
  end.
Fixpoint beta_cols (slen : nat) (ns t : list N) : list (list R) :=
  match t with
  | [] => []
  | [_] => [map (fun _ => ln 1) (seq 1 (length ns))]
  | _ :: ((w :: _) as r) => let bs := beta_cols slen ns r in map (fun i => beta_cell slen ns (hd [] bs) i w) (seq 1 (length ns)) :: bs
  end.
(** :1153-1162 calc_lanji_num, :719-771 calc_lanji: the expected values of one sentence pair; EXP_VAL_LOG_MAX, EXP_VAL_LOG_MIN _incrHmmAligModel.h:60-61 *)
Definition lanji_num (a b : R) : R := if Rlt_dec (a + b) SMALL_LG_NUM then SMALL_LG_NUM else a + b.
Definition clamp (x : R) : R := let x := if Rlt_dec (- / 100) x then - / 100 else x in if Rlt_dec x (- 9) then - 9 else x.
Definition lanji_col (al be : list R) : list R :=
  let nums := map (fun q => lanji_num (fst q) (snd q)) (combine al be) in
  match nums with [] => [] | v :: r => let sm := fold_left lns_sumlog r v in map (fun d => clamp (d - sm)) nums end.
Definition calc_lanji (ns t : list N) : list (list R) :=
  let slen := getSrcLen ns in map (fun q => lanji_col (fst q) (snd q)) (combine (fwd_cols slen ns None t) (beta_cols slen ns t)).
End M.
