(** What a word-graph file must keep. *)
From Coq Require Import Ascii String Arith ZArith NArith QArith Qpower Qabs List Bool.
From Verif Require Import TextSpec.
Import ListNotations.
(** an arc with its words, score and score components *)
Record farc := mkfarc { f_pred : nat; f_succ : nat; f_score : Q; f_words : list str; f_comps : list Q }.
(** calls building a word graph; [WPrune]: any outcome of prune() *)
Inductive wcall := WArc (p s : nat) (words : list str) (score : Q) (comps : list Q) | WFinal (s : nat) | WPrune (v : list bool) | WInit (z : Q) | WWeights (l : list (str * Q)).
(** at most six significant decimal digits *)
Definition six_digits (x : Q) : Prop := exists m e : Z, (Z.abs m < 1000000)%Z /\ x == inject_Z m * 10 ^ e.
(** y is x up to the precision of the file *)
Definition as_printed (x y : Q) : Prop := Qabs (y - x) <= (5 # 1000000) * Qabs x /\ (six_digits x -> y == x).
Definition same_arc (a b : farc) : Prop :=
  f_pred b = f_pred a /\ f_succ b = f_succ a /\ f_words b = f_words a /\ as_printed (f_score a) (f_score b) /\ Forall2 as_printed (f_comps a) (f_comps b).
Definition same_weight (a b : str * Q) : Prop := fst b = fst a /\ as_printed (snd a) (snd b).
(** words without blank, newline or NUL *)
Definition plain (w : str) : Prop := w <> [] /\ ~ In (ascii_of_nat 32) w /\ ~ In (ascii_of_nat 10) w /\ ~ In (ascii_of_nat 0) w.
Definition small (n : nat) : Prop := (N.of_nat n <= 2147483647)%N.
Definition plain_arc (a : farc) : Prop := small (f_pred a) /\ small (f_succ a) /\ Forall plain (f_words a) /\ (f_comps a = [] -> hd_error (f_words a) <> Some (T "|||")).
(** the arcs of [l] not flagged in [v] *)
Fixpoint unflagged (l : list farc) (v : list bool) : list farc :=
  match l, v with a :: l', b :: v' => if b then unflagged l' v' else a :: unflagged l' v' | _, _ => [] end.
Definition forward (a : farc) : Prop := (f_pred a < f_succ a)%nat.
(** weighted sum *)
Definition weighted (w c : list Q) : Q := fold_right Qplus 0 (map (fun x => fst x * snd x) (combine w c)).
(** positions of the arcs of [l] whose end [f] is the state [s] *)
Definition positions (f : farc -> nat) (l : list farc) (s : nat) : list nat :=
  filter (fun i => match nth_error l i with Some a => Nat.eqb (f a) s | None => false end) (seq 0 (length l)).
