(** Specification vocabulary for the language model: counted n-grams, histories of words, distributions. *)
From Coq Require Import Ascii String Arith QArith List Bool.
Import ListNotations.

Section EV.
Context {W : Type}.
Variable weq : forall a b : W, {a = b} + {a <> b}.
Definition same (h h' : list W) (w w' : W) : bool :=
  if list_eq_dec weq h h' then if weq w w' then true else false else false.
Definition same_hist (h h' : list W) : bool := if list_eq_dec weq h h' then true else false.

(** an n-gram occurrence: history, word, count *)
Definition event : Type := (list W * W * Q)%type.
(** total count of "h w" in a training history, and of "h followed by anything" *)
Definition total_ngram (h : list W) (w : W) (evs : list event) : Q :=
  fold_right (fun e acc => (if same h (fst (fst e)) w (snd (fst e)) then snd e else 0) + acc) 0 evs.
Definition total_hist (h : list W) (evs : list event) : Q :=
  fold_right (fun e acc => (if same_hist h (fst (fst e)) then snd e else 0) + acc) 0 evs.
Definition nonneg_counts (evs : list event) : Prop := forall e, In e evs -> 0 <= snd e.

(** calls that change the counts: addition of an occurrence, or setting the stored counts of the history and of the n-gram *)
Inductive lm_op : Type := OpIncr (h : list W) (w : W) (c : Q) | OpSet (h : list W) (w : W) (cs cst : Q).
(** what the n-gram count and the history count should be after the calls (oldest first) *)
Fixpoint ngram_after (h : list W) (w : W) (ops : list lm_op) (cur : Q) : Q :=
  match ops with
  | [] => cur
  | OpIncr h' w' c :: r => ngram_after h w r (if same h h' w w' then cur + c else cur)
  | OpSet h' w' _ cst :: r => ngram_after h w r (if same h h' w w' then cst else cur)
  end.
Fixpoint hist_after (h : list W) (ops : list lm_op) (cur : Q) : Q :=
  match ops with
  | [] => cur
  | OpIncr h' _ c :: r => hist_after h r (if same_hist h h' then cur + c else cur)
  | OpSet h' _ cs _ :: r => hist_after h r (if same_hist h h' then cs else cur)
  end.
Definition op_words (o : lm_op) : list W :=
  match o with OpIncr h w _ => h ++ [w] | OpSet h w _ _ => h ++ [w] end.
(** whenever a history is given to a "set" call, no word that has not been seen before (neither in [known] nor in an earlier
    call) occurs twice in it *)
Fixpoint no_new_repeats (known : list W) (ops : list lm_op) : Prop :=
  match ops with
  | [] => True
  | o :: r => (match o with OpSet h _ _ _ => forall w, In w h -> ~ In w known -> count_occ weq h w = 1%nat | _ => True end) /\
              no_new_repeats (op_words o ++ known) r
  end.
End EV.
Arguments lm_op : clear implicits. Arguments event : clear implicits.

Definition qsum (l : list Q) : Q := fold_right Qplus 0 l.
(** the suffixes of a history: h, tl h, ..., [] *)
Fixpoint suffixes {A} (l : list A) : list (list A) := match l with [] => [[]] | _ :: r => l :: suffixes r end.

(** the [n] words preceding a position: the last [n] elements of the sentence so far, padded on the left with [bos] *)
Definition last_n {A} (n : nat) (l : list A) : list A := skipn (length l - n) l.
Definition context {A} (bos : A) (n : nat) (prefix : list A) : list A := last_n n (repeat bos n ++ prefix).
