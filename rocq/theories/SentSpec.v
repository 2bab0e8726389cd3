(** What a sentence handler should do: a growing list of sentence pairs. *)
From Coq Require Import Ascii List ZArith.
From Verif Require Import TextSpec.
Import ListNotations.

Definition sentence := list str.
(** a count: the number denoted by a text (atof), or a number given by the program *)
Inductive scount := Atof (text : str) | Lit (z : Z).
Inductive sh_op := Get (n : nat) | Add (s t : sentence) (c : scount) | Num.
Inductive sh_out := OutPair (p : option (sentence * sentence * scount)) | OutRange (a b : nat) | OutNum (n : nat).

(** the handler is a list: Get n reads its n-th element (None: error), Add appends and reports the position *)
Fixpoint sh_spec (ops : list sh_op) (corpus : list (sentence * sentence * scount)) : list sh_out :=
  match ops with
  | [] => []
  | Get n :: r => OutPair (nth_error corpus n) :: sh_spec r corpus
  | Add s t c :: r => OutRange (length corpus) (length corpus) :: sh_spec r (corpus ++ [(s, t, c)])
  | Num :: r => OutNum (length corpus) :: sh_spec r corpus
  end.

(** the corpus given by the lines of a source and a target file and, optionally, of a count file: words are separated by
    blanks and the count is the first word of its line *)
Definition blank_words (l : str) : sentence := words (fun c => Ascii.eqb c " "%char) l.
Fixpoint corpus_of (ls lt : list str) : list (sentence * sentence * scount) :=
  match ls, lt with
  | s :: ls', t :: lt' => (blank_words s, blank_words t, Lit 1) :: corpus_of ls' lt'
  | _, _ => []
  end.
Fixpoint corpus_counts (ls lt lc : list str) : list (sentence * sentence * scount) :=
  match ls, lt, lc with
  | s :: ls', t :: lt', c :: lc' => (blank_words s, blank_words t, Atof (hd [] (blank_words c))) :: corpus_counts ls' lt' lc'
  | _, _, _ => []
  end.
