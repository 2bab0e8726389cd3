(** What an annotated sentence means. *)
From Coq Require Import Ascii String Arith List Bool.
From Verif Require Import TextSpec.
Import ListNotations.
Open Scope nat_scope.
Local Notation seg := (nat * nat)%type.
(** a sentence is a sequence of plain words and of phrases given with their translation *)
Inductive item := Word (w : str) | Phrase (src trg : list str).
Definition item_words (i : item) : list str := match i with Word w => [w] | Phrase s _ => s end.
Definition sentence (is : list item) : list str := flat_map item_words is.
(** constraints with 1-based positions; [k] words precede *)
Fixpoint marks (k : nat) (is : list item) : list (seg * list str) :=
  match is with
  | [] => []
  | Word _ :: r => marks (k + 1) r
  | Phrase s t :: r => ((k + 1, k + length s), t) :: marks (k + length s) r
  end.
(** the text a user writes: words separated by blanks; tags may be glued to the words *)
Fixpoint spaced (ws : list str) : str := match ws with [] => [] | [w] => w | w :: r => w ++ T " " ++ spaced r end.
Definition item_text (i : item) : str :=
  match i with
  | Word w => w
  | Phrase s t => T "<phr_pair_annot><src_segm>" ++ spaced s ++ T "</src_segm><trg_segm>" ++ spaced t ++ T "</trg_segm></phr_pair_annot>"
  end.
Definition annotated (is : list item) : str := spaced (map item_text is).
(** words free of blanks and of the character that starts a tag *)
Definition plain (w : str) : Prop := w <> [] /\ forall c, In c w -> blank c = false /\ c <> "<"%char.
Definition good_item (i : item) : Prop :=
  match i with Word w => plain w | Phrase s t => s <> [] /\ t <> [] /\ Forall plain s /\ Forall plain t end.
