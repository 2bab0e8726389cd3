(** Interactive (CAT) sessions: what the user has typed, and what "keeps the prefix" means. *)
From Coq Require Import Ascii String List.
From Verif Require Import TextSpec.
Import ListNotations.

(** what a user can do: start a sentence, add a string to the prefix, set the prefix, drop it *)
Inductive cat_op := OpStart | OpAdd (s : str) | OpSet (s : str) | OpReset.

(** the prefix in the user's editor after one action, and after a session *)
Definition typed1 (p : str) (o : cat_op) : str :=
  match o with OpStart => [] | OpAdd s => p ++ s | OpSet s => s | OpReset => [] end.
Definition typed (os : list cat_op) : str := fold_left typed1 os [].

Definition space : ascii := " "%char.
(** the words of a text without tabs *)
Definition sp_words (s : str) : list str := words (fun c => Ascii.eqb c space) s.
Definition no_tab (s : str) : Prop := ~ In (ascii_of_nat 9) s.
Definition no_nul (s : str) : Prop := ~ In (ascii_of_nat 0) s.
Definition ends_blank (s : str) : Prop := exists u, s = u ++ [space].
(** [p] is [ws] with the last word possibly unfinished, [ws'] begins with these words *)
Definition word_prefix (ws ws' : list str) : Prop :=
  ws = [] \/ exists u l q r, ws = u ++ [l] /\ ws' = u ++ [l ++ q] ++ r.
(** the last (unfinished) word of a text: what follows its last space *)
Definition last_word_is (s w : str) : Prop :=
  ~ In space w /\ (s = w \/ exists u, s = u ++ space :: w).
(** the text is single words separated by single spaces, optionally followed by one space *)
Definition one_spaced (s : str) : Prop := exists b, (b = [] \/ b = [space]) /\
  s = (match sp_words s with [] => [] | w :: v => w ++ concat (map (fun x => space :: x) v) end) ++ b.
