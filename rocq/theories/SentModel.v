(** Sentence handler: /repo/src/sw_models/LightSentenceHandler.cc on top of AwkInputStream (TextModel.v).
    Not modelled: file-system errors (the source and target files open), 32-bit wrap of the sentence counter,
    printSentPairs and the getSrcSent/getTrgSent/getCount projections of nthSentPair. *)
From Coq Require Import Ascii String Arith List Bool ZArith.
From Verif Require Import TextSpec TextModel SentSpec.
Import ListNotations.

(** AwkInputStream: [sopen] is FS!=0, [content] the file, [srest] what the FILE* has not delivered yet, [sbuf] the line
    buffer (None: never filled, NF uninitialised). *)
Record stream := { sopen : bool; content : str; srest : str; sbuf : option str }.
(** AwkInputStream.cc:29-35 *)
Definition stream0 : stream := {| sopen := false; content := []; srest := []; sbuf := None |}.
(** AwkInputStream.cc:92-108 (file exists); the line buffer survives *)
Definition s_open (f : str) (s : stream) : stream := {| sopen := true; content := f; srest := f; sbuf := sbuf s |}.
(** AwkInputStream.cc:129-136 *)
Definition s_close (s : stream) : stream := {| sopen := false; content := content s; srest := srest s; sbuf := sbuf s |}.
(** AwkInputStream.cc:50-67: at end of file the line buffer and NF keep their old contents *)
Definition s_getln (s : stream) : bool * stream :=
  if sopen s then
    match getln (srest s) with
    | Some (l, r) => (true, {| sopen := true; content := content s; srest := r; sbuf := Some l |})
    | None => (false, s)
    end
  else (false, s).
(** AwkInputStream.cc:139-148 *)
Definition s_rwd (s : stream) : stream :=
  if sopen s then {| sopen := true; content := content s; srest := content s; sbuf := sbuf s |} else s.
(** AwkInputStream.cc:70-89 on the current line; NF was computed by getln *)
Definition s_dollar (s : stream) (n : nat) : option str :=
  if sopen s then match sbuf s with Some b => dollar SP b n | None => None end else None.
Definition s_NF (s : stream) : option nat := match sbuf s with Some b => get_NF SP b | None => None end.

(** LightSentenceHandler.h data members *)
Record handler := { awkSrc : stream; awkTrg : stream; awkC : stream; countFileExists : bool;
                    nsPairsInFiles : nat; currFileSentIdx : nat; sentPairs : list (sentence * sentence * scount) }.
(** LightSentenceHandler.cc:32-37 *)
Definition handler0 : handler := {| awkSrc := stream0; awkTrg := stream0; awkC := stream0; countFileExists := false;
                                    nsPairsInFiles := 0; currFileSentIdx := 0; sentPairs := [] |}.
(** LightSentenceHandler.cc:369-379 (sentPairCont and sentPairCount are one list) *)
Definition sh_clear (h : handler) : handler :=
  {| awkSrc := s_close (awkSrc h); awkTrg := s_close (awkTrg h); awkC := s_close (awkC h); countFileExists := false;
     nsPairsInFiles := 0; currFileSentIdx := 0; sentPairs := [] |}.
Definition set_streams (h : handler) (a b c : stream) (idx : nat) : handler :=
  {| awkSrc := a; awkTrg := b; awkC := c; countFileExists := countFileExists h; nsPairsInFiles := nsPairsInFiles h;
     currFileSentIdx := idx; sentPairs := sentPairs h |}.

(** LightSentenceHandler.cc:241-260 *)
Definition getNextLineFromFiles (h : handler) : bool * handler :=
  let (r1, a) := s_getln (awkSrc h) in
  if negb r1 then (false, set_streams h a (awkTrg h) (awkC h) (currFileSentIdx h)) else
  let (r2, b) := s_getln (awkTrg h) in
  if negb r2 then (false, set_streams h a b (awkC h) (currFileSentIdx h)) else
  if countFileExists h then
    let (r3, c) := s_getln (awkC h) in
    if negb r3 then (false, set_streams h a b c (currFileSentIdx h)) else (true, set_streams h a b c (S (currFileSentIdx h)))
  else (true, set_streams h a b (awkC h) (S (currFileSentIdx h))).
(** LightSentenceHandler.cc:121-133 *)
Definition rewindFiles (h : handler) : handler :=
  let h1 := set_streams h (s_rwd (awkSrc h)) (s_rwd (awkTrg h)) (s_rwd (awkC h)) (currFileSentIdx h) in
  let h2 := snd (getNextLineFromFiles h1) in
  set_streams h2 (awkSrc h2) (awkTrg h2) (awkC h2) 0.

(** the counting loop LightSentenceHandler.cc:85-101; Some (ok, streams, count) *)
Fixpoint count_loop (fuel : nat) (a b : stream) (n : nat) : option (bool * stream * stream * nat) :=
  match s_getln a with
  | (false, a') => Some (true, a', b, n)
  | (true, a') => match s_getln b with
                  | (false, b') => Some (false, a', b', n)
                  | (true, b') => match fuel with O => None | S f => count_loop f a' b' (S n) end
                  end
  end.
(** LightSentenceHandler.cc:40-118.  [fc] = None: empty name or missing count file.  Result: THOT_OK?, sentRange, handler.
    On THOT_ERROR the second component of sentRange is not written (None). *)
Definition readSentencePairs (fs ft : str) (fc : option str) (h : handler) : option (bool * (Z * option Z) * handler) :=
  let h := sh_clear h in
  let a := s_open fs (awkSrc h) in
  let b := s_open ft (awkTrg h) in
  let c := match fc with Some f => s_open f (awkC h) | None => awkC h end in
  let ex := match fc with Some _ => true | None => false end in
  match count_loop (length fs) a b 0 with
  | None => None
  | Some (ok, a', b', n) =>
    let h' := {| awkSrc := a'; awkTrg := b'; awkC := c; countFileExists := ex; nsPairsInFiles := n; currFileSentIdx := 0; sentPairs := [] |} in
    if ok then Some (true, (0%Z, Some ((Z.of_nat n - 1) mod 2^32)%Z), rewindFiles h') else Some (false, (0%Z, None), h')
  end.
(** LightSentenceHandler.cc:136-154 *)
Definition addSentPair (s t : sentence) (c : scount) (h : handler) : (nat * nat) * handler :=
  let k := nsPairsInFiles h + length (sentPairs h) in
  ((k, k), {| awkSrc := awkSrc h; awkTrg := awkTrg h; awkC := awkC h; countFileExists := countFileExists h;
              nsPairsInFiles := nsPairsInFiles h; currFileSentIdx := currFileSentIdx h; sentPairs := sentPairs h ++ [(s, t, c)] |}).
(** LightSentenceHandler.cc:157-160 *)
Definition numSentPairs (h : handler) : nat := nsPairsInFiles h + length (sentPairs h).

(** while(getNextLineFromFiles()) { if(currFileSentIdx==n) break; }  (cc:207-210) *)
Fixpoint seek_loop (fuel n : nat) (h : handler) : option handler :=
  match getNextLineFromFiles h with
  | (false, h') => Some h'
  | (true, h') => if currFileSentIdx h' =? n then Some h' else match fuel with O => None | S f => seek_loop f n h' end
  end.
(** for(i=1;i<=NF;++i) push_back(dollar(i))  (cc:218-225) *)
Fixpoint fields (s : stream) (is : list nat) : option sentence :=
  match is with
  | [] => Some []
  | i :: r => match s_dollar s i, fields s r with Some w, Some ws => Some (w :: ws) | _, _ => None end
  end.
Definition all_fields (s : stream) : option sentence := match s_NF s with Some n => fields s (seq 1 n) | None => None end.
(** LightSentenceHandler.cc:192-238; outer None: undefined behaviour, inner None: THOT_ERROR *)
Definition nthSentPairFromFiles (n : nat) (h : handler) : option (option (sentence * sentence * scount) * handler) :=
  if nsPairsInFiles h <=? n then Some (None, h) else
  let h := if n <? currFileSentIdx h then rewindFiles h else h in
  match (if currFileSentIdx h =? n then Some h else seek_loop (length (srest (awkSrc h))) n h) with
  | None => None
  | Some h => match all_fields (awkSrc h), all_fields (awkTrg h) with
              | Some s, Some t => if countFileExists h
                                  then match s_dollar (awkC h) 1 with Some w => Some (Some (s, t, Atof w), h) | None => None end
                                  else Some (Some (s, t, Lit 1), h)
              | _, _ => None
              end
  end.
(** LightSentenceHandler.cc:163-189 *)
Definition nthSentPair (n : nat) (h : handler) : option (option (sentence * sentence * scount) * handler) :=
  if numSentPairs h <=? n then Some (None, h) else
  if n <? nsPairsInFiles h then nthSentPairFromFiles n h
  else match nth_error (sentPairs h) (n - nsPairsInFiles h) with Some p => Some (Some p, h) | None => None end.

(** a client session; None is undefined behaviour *)
Fixpoint sh_run (ops : list sh_op) (h : handler) : option (list sh_out) :=
  match ops with
  | [] => Some []
  | Get n :: r => match nthSentPair n h with Some (o, h') => option_map (cons (OutPair o)) (sh_run r h') | None => None end
  | Add s t c :: r => let (k, h') := addSentPair s t c h in option_map (cons (OutRange (fst k) (snd k))) (sh_run r h')
  | Num :: r => option_map (cons (OutNum (numSentPairs h))) (sh_run r h)
  end.
