(** In-memory lexical table: /repo/src/sw_models/IncrLexTable.{h,cc}.
    Floats are 32-bit patterns (never computed with here), word indices are N < 2^32.  The inner container
    OrderedVector<WordIndex,float> (IncrLexTable.h:117) is the association list of AMap.v; property C11 (ContainerModel)
    is the justification: operator[] and find behave as a finite map. *)
From Coq Require Import NArith List Bool.
From Verif Require Import AMap LexSpec.
Import ListNotations.
Open Scope N_scope.

(** IncrLexTable.h:121-125 the two data members *)
Record lextab := { lexNumer : list (list (N * N)); lexDenom : list (bool * N) }.
(** IncrLexTable.cc:32 constructor, 289-293 clear *)
Definition lt_empty : lextab := {| lexNumer := []; lexDenom := [] |}.

(** the loop while(v.size()<=n) v.push_back(d) in closed form (cc:43-44, 87-88) *)
Definition grow {A} (d : A) (n : N) (l : list A) : list A := l ++ repeat d (S (N.to_nat n) - length l).
(** v[n]=x for n < v.size() *)
Fixpoint upd {A} (n : nat) (x : A) (l : list A) : list A :=
  match l, n with
  | [], _ => []
  | _ :: l', O => x :: l'
  | y :: l', S n' => y :: upd n' x l'
  end.

(** IncrLexTable.cc:37-49 *)
Definition setLexNumer (s t f : N) (T : lextab) : lextab :=
  let g := grow [] t (lexNumer T) in
  {| lexNumer := upd (N.to_nat t) (aset N.eq_dec s f (nth (N.to_nat t) g [])) g; lexDenom := lexDenom T |}.
(** IncrLexTable.cc:52-81; result (value, found) *)
Definition getLexNumer (T : lextab) (s t : N) : N * bool :=
  if N.of_nat (length (lexNumer T)) <=? t then (0, false)
  else match aget N.eq_dec s (nth (N.to_nat t) (lexNumer T) []) with
       | Some f => (f, true)
       | None => (0, false)
       end.
(** IncrLexTable.cc:84-90 *)
Definition setLexDenom (s d : N) (T : lextab) : lextab :=
  {| lexNumer := lexNumer T; lexDenom := upd (N.to_nat s) (true, d) (grow (false, 0) s (lexDenom T)) |}.
(** IncrLexTable.cc:93-106 *)
Definition getLexDenom (T : lextab) (s : N) : N * bool :=
  if s <? N.of_nat (length (lexDenom T))
  then let e := nth (N.to_nat s) (lexDenom T) (false, 0) in (snd e, fst e)
  else (0, false).
(** IncrLexTable.cc:109-126; result (transSet, return value) *)
Definition getTransForTarget (T : lextab) (t : N) : list N * bool :=
  if N.of_nat (length (lexNumer T)) <=? t then ([], false)
  else (map fst (nth (N.to_nat t) (lexNumer T) []), true).
(** IncrLexTable.cc:129-136 *)
Definition setLexNumDen (s t num den : N) (T : lextab) : lextab := setLexNumer s t num (setLexDenom s den T).

(** a 4-byte little-endian object as written with ofstream::write on x86 *)
Definition le32 (x : N) : list N := [x mod 256; (x / 256) mod 256; (x / 65536) mod 256; (x / 16777216) mod 256].
Definition un32 (a b c d : N) : N := a + 256 * b + 65536 * c + 16777216 * d.

(** one record of printBin, IncrLexTable.cc:245-250 *)
Definition rec_bytes (s t f d : N) : list N := le32 s ++ le32 t ++ le32 f ++ le32 d.
(** IncrLexTable.cc:229-256 printBin (file contents; opening the file is assumed to succeed).  The row counter is a 32-bit
    WordIndex compared with size(): with 2^32 rows it wraps and the loop never ends (None). *)
Fixpoint print_rows (T : lextab) (t : nat) (rows : list (list (N * N))) : list N :=
  match rows with
  | [] => []
  | r :: rs => flat_map (fun e => rec_bytes (fst e) (N.of_nat t) (snd e) (fst (getLexDenom T (fst e)))) r ++ print_rows T (S t) rs
  end.
Definition printBin (T : lextab) : option (list N) :=
  if N.of_nat (length (lexNumer T)) <? 2^32 then Some (print_rows T 0 (lexNumer T)) else None.

(** IncrLexTable.cc:149-184 loadBin: while read(s) succeeds, read t, numer and denom WITHOUT checking.  A file ending inside a
    record leaves uninitialised variables: None.  The first argument bounds the number of iterations; [loadBin] passes
    the file length, which is enough. *)
Fixpoint load_loop (fuel : nat) (bs : list N) (T : lextab) : option lextab :=
  match bs with
  | s0 :: s1 :: s2 :: s3 :: rest =>
    match fuel, rest with
    | S fuel', t0 :: t1 :: t2 :: t3 :: n0 :: n1 :: n2 :: n3 :: d0 :: d1 :: d2 :: d3 :: rest' =>
      load_loop fuel' rest' (setLexNumDen (un32 s0 s1 s2 s3) (un32 t0 t1 t2 t3) (un32 n0 n1 n2 n3) (un32 d0 d1 d2 d3) T)
    | _, _ => None
    end
  | _ => Some T
  end.
Definition loadBin (bs : list N) : option lextab := load_loop (length bs) bs lt_empty.

(** a history of calls of the public setters *)
Definition lex_apply (T : lextab) (o : lex_op) : lextab :=
  match o with OpNum s t f => setLexNumer s t f T | OpDen s d => setLexDenom s d T end.
Definition lex_run (ops : list lex_op) : lextab := fold_left lex_apply ops lt_empty.
