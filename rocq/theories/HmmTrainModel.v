(** /repo/src/sw_models/_incrHmmAligModel.cc: training of the HMM alignment model (no THOT_ENABLE_VITERBI_TRAINING).  The parameter tables are
    those of Ibm2Model.v (IncrLexTable keyed by words, IncrHmmAligTable keyed by (prev_i,slen) and i, IncrHmmAligTable.cc:36-110).  The matrices of
    expected values have unrestricted size, or size 0 in batch training (keep = false); positions are stored from 0.  The caches of alignment and
    lexical log probabilities are left out (property C73), and so is the sentence length model, a separate table (C75). *)
From Coq Require Import Reals NArith Arith List Bool.
From Verif Require Import AMap MathModel LogNum Ibm1Spec Ibm1Model Ibm2Model HmmModel.
Import ListNotations.
Open Scope R_scope.
Definition hposdec : forall a b : nat * nat, {a = b} + {a <> b}.
Proof. intros [a b] [c d]. destruct (Nat.eq_dec a c), (Nat.eq_dec b d); [left; congruence|right; congruence..]. Defined.
Definition htab := ndtab (nat * nat) nat.
Definition real_of (o : option lg) : option R := match o with Some (Fin r) => Some r | Some _ => Some SMALL_LG_NUM | None => None end.
(** what the queries of HmmModel.v see; v: size of the target vocabulary *)
Definition hmm_view (L : ltab) (A : htab) (v : nat) (lsf_ asf_ : R) (p : option R) : hmm :=
  {| lexNumer := fun s t => real_of (getNumer N.eq_dec N.eq_dec L s t); lexDenom := fun s => real_of (getDenom N.eq_dec L s);
     aligNumer := fun q n i => real_of (getNumer hposdec Nat.eq_dec A (q, n) i); aligDenom := fun q n => real_of (getDenom hposdec A (q, n));
     vocab := v; lsf := lsf_; asf := asf_; p0 := p |}.
(** :367-370; the P0 variant counts no transition from or to a NULL state (_incrHmmP0AligModel.cc:139-145) *)
Definition extendWithNullWordAlig (q : option R) (s : list N) : list N := match q with None => extendWithNullWord s | Some _ => s end.
Section E.
Variable M : hmm.
Definition floor_lg (x : R) : R := if Rlt_dec x SMALL_LG_NUM then SMALL_LG_NUM else x.
(** :1165-1176 calc_lanjm1ip_anji_num_je1; be: first column of the backward matrix *)
Definition num_je1 (slen : nat) (ns : list N) (w : N) (be : list R) (i : nat) : R :=
  floor_lg (logaProb M 0 slen i + logpts M (nth (i - 1) ns NULL_WORD) w + nth (i - 1) be 0).
(** :1179-1193 calc_lanjm1ip_anji_num_jg1; al: column j-1 of the forward matrix, be: column j of the backward matrix *)
Definition num_jg1 (slen : nat) (ns : list N) (w : N) (al be : list R) (ip i : nat) : R :=
  floor_lg (nth (ip - 1) al 0 + logaProb M ip slen i + logpts M (nth (i - 1) ns NULL_WORD) w + nth (i - 1) be 0).
Definition lsum (l : list R) : R := match l with [] => 0 | v :: r => fold_left lns_sumlog r v end.
(** :886-914,945-955: first target position; isFirstNullAligPar(0,slen,i) is i==slen+1 (:1131-1136) *)
Definition first_col (slen : nat) (ns : list N) (w : N) (be : list R) : list (list R) :=
  let num := fun i => if isNullAlig 0 slen i then (if Nat.eqb i (slen + 1) then num_je1 slen ns w be i else num_je1 slen ns w be (slen + 1)) else num_je1 slen ns w be i in
  let nums := map num (seq 1 (length ns)) in map (fun d => [clamp (d - lsum nums)]) nums.
(** :916-939,957-974: other target positions; a value is computed for the invalid transitions as well but never stored or used *)
Definition next_col (slen : nat) (ns : list N) (w : N) (al be : list R) : list (list R) :=
  let num := fun i ip => if isValidAlig ip slen i then num_jg1 slen ns w al be ip i else SMALL_LG_NUM in
  let nums := map (fun i => map (num i) (seq 1 (length ns))) (seq 1 (length ns)) in map (map (fun d => clamp (d - lsum (concat nums)))) nums.
Fixpoint next_cols (slen : nat) (ns t : list N) (als bes : list (list R)) : list (list (list R)) :=
  match t, als, bes with w :: t', al :: als', be :: bes' => next_col slen ns w al be :: next_cols slen ns t' als' bes' | _, _, _ => [] end.
(** :862-982 calc_lanjm1ip_anji for the words nsa; ns: the words the alpha and beta matrices were computed for (:643,:684) *)
Definition calc_lanjm1ip_anji (ns nsa t : list N) : list (list (list R)) :=
  let slen := getSrcLen nsa in let als := fwd_cols M (getSrcLen ns) ns None t in let bes := beta_cols M (getSrcLen ns) ns t in
  match t, bes with w :: t', be :: bes' => first_col slen nsa w be :: next_cols slen nsa t' als bes' | _, _ => [] end.
End E.
(** expectations of one sentence pair: state expectations and transition expectations *)
Definition hexp : Type := (list (list R) * list (list (list R)))%type.
Definition hstep_e (M : hmm) (p : pair) : hexp := (calc_lanji M (extendWithNullWord (src p)) (trg p), calc_lanjm1ip_anji M (extendWithNullWord (src p)) (extendWithNullWordAlig (p0 M) (src p)) (trg p)).
(** fillEmAuxVarsLex :820-833, fillEmAuxVarsAlig :1092-1103 *)
Definition weighted_lg (w x : R) : lg := if Rlt_dec (ln w + x) SMALL_LG_NUM then LZ else Fin (ln w + x).
Definition lex_val (x : hexp) (q : nat * nat) : R := nth (snd q) (nth (fst q) (fst x) []) 0.
(** a position (j,i,ip): target position and current state from 0, previous state (0 if j=0) *)
Definition alig_val (x : hexp) (q : nat * nat * nat) : R := let '(j, i, ip) := q in nth (if Nat.eqb j 0 then 0 else ip - 1) (nth i (nth j (snd x) []) []) 0.
Definition curr_lg (w : R) (o : option R) : lg := match o with Some v => weighted_lg w v | None => LZ end.
(** :795-805 gatherLexSuffStats *)
Definition lex_positions (p : pair) : list (nat * nat) := flat_map (fun j => map (fun i => (j, i)) (seq 0 (length (extendWithNullWord (src p))))) (seq 0 (length (trg p))).
(** :1053-1082 gatherAligSuffStats *)
Definition alig_positions (z : option R) (p : pair) : list (nat * nat * nat) :=
  let ns := extendWithNullWordAlig z (src p) in let slen := getSrcLen ns in
  flat_map (fun j => flat_map (fun i => if Nat.eqb j 0 then [(j, i, 0%nat)] else map (fun ip => (j, i, ip)) (filter (fun ip => isValidAlig ip slen (S i)) (seq 1 (length ns)))) (seq 0 (length ns))) (seq 0 (length (trg p))).
Definition lex_key (p : pair) (q : nat * nat) : N * N := (nth (snd q) (extendWithNullWord (src p)) 0%N, nth (fst q) (trg p) 0%N).
(** :1105-1108: the previous state itself *)
Definition alig_key (z : option R) (p : pair) (q : nat * nat * nat) : (nat * nat) * nat := let '(j, i, ip) := q in ((ip, getSrcLen (extendWithNullWordAlig z (src p))), S i).
Definition haux : Type := (nd_aux N N * nd_aux (nat * nat) nat)%type.
(** :835-857, :1110-1122 *)
Definition gather_h (z : option R) (p : pair) (old : option hexp) (new : hexp) (aux : haux) : haux :=
  (fold_left (fun aux q => add_contrib N.eq_dec N.eq_dec (lex_key p q) (curr_lg (weight p) (option_map (fun x => lex_val x q) old)) (weighted_lg (weight p) (lex_val new q)) aux) (lex_positions p) (fst aux),
   fold_left (fun aux q => add_contrib hposdec Nat.eq_dec (alig_key z p q) (curr_lg (weight p) (option_map (fun x => alig_val x q) old)) (weighted_lg (weight p) (alig_val new q)) aux) (alig_positions z p) (snd aux)).
(** :1286-1328 updateParsLex is Ibm2Model.nd_update; :1331-1365 updateParsAlig does not test numer!=SMALL_LG_NUM *)
Definition upd_alig_one (T : htab) (e : ((nat * nat) * nat) * (lg * lg)) : htab :=
  let '((s, t), (c, n)) := e in
  if lgneqb c n then
    let numer := match getNumer hposdec Nat.eq_dec T s t with Some x => x | None => LZ end in
    let denom := match getDenom hposdec T s with Some x => x | None => LZ end in
    let new_numer := obtainLogNewSuffStat numer c n in
    setNumDen hposdec Nat.eq_dec T s t new_numer (lgsumlog (lgsublog denom numer) new_numer)
  else T.
Definition updateParsAlig_h (T : htab) (aux : nd_aux (nat * nat) nat) : htab := fold_left upd_alig_one aux T.
Record hem := { hlex : ltab; halig : htab; hkeep : bool; hstore : list (nat * hexp) }.
Section TRAIN.
Variable voc : list pair -> nat.         (* size of the target vocabulary when the corpus is D *)
Variables lsf_ asf_ : R.
Variable p0_ : option R.
Definition hview (D : list pair) (E : hem) : hmm := hmm_view (hlex E) (halig E) (voc D) lsf_ asf_ p0_.
(** :540-585 calcNewLocalSuffStats; M: the model before the pass (the tables are only written afterwards) *)
Definition pass_one (D : list pair) (M : hmm) (st : hem * haux) (n : nat) : hem * haux :=
  let p := nth n D no_pair in let E := fst st in
  if sentenceLengthIsOk (src p) && sentenceLengthIsOk (trg p) then
    let old := if hkeep E then aget Nat.eq_dec n (hstore E) else None in
    let new := hstep_e M p in
    ({| hlex := hlex E; halig := halig E; hkeep := hkeep E; hstore := if hkeep E then aset Nat.eq_dec n new (hstore E) else hstore E |}, gather_h p0_ p old new (snd st))
  else st.
Definition calcNewLocalSuffStats_h (D : list pair) (range : list nat) (E : hem) : hem * haux := fold_left (pass_one D (hview D E)) range (E, ([], [])).
(** :60-76 trainSentPairRange *)
Definition trainSentPairRange_h (D : list pair) (range : list nat) (E : hem) : hem :=
  let '(E', aux) := calcNewLocalSuffStats_h D range E in
  {| hlex := nd_update N.eq_dec N.eq_dec (hlex E') (fst aux); halig := updateParsAlig_h (halig E') (snd aux); hkeep := hkeep E'; hstore := hstore E' |}.
(** :85-105 efficientBatchTrainingForRange; :47-51 set_expval_maxnsize clears the matrices *)
Definition efficientBatchTrainingForRange_h (D : list pair) (range : list nat) (E : hem) : hem :=
  let '(E', aux) := calcNewLocalSuffStats_h D range {| hlex := hlex E; halig := halig E; hkeep := false; hstore := [] |} in
  {| hlex := nd_update N.eq_dec N.eq_dec nd_empty (fst aux); halig := updateParsAlig_h nd_empty (snd aux); hkeep := false; hstore := [] |}.
Definition hem_new : hem := {| hlex := nd_empty; halig := nd_empty; hkeep := true; hstore := [] |}.
(** a client session *)
Definition hem_op (x : list pair * hem) (o : em_op) : list pair * hem :=
  match o with
  | AddPair p => (fst x ++ [p], snd x)
  | Train b e => (fst x, trainSentPairRange_h (fst x) (seq b (S e - b)) (snd x))
  end.
End TRAIN.
