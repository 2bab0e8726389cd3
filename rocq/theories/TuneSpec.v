(** What queries to the language model features and the tuning of weights are expected to give. *)
From Coq Require Import Reals ZArith QArith List Bool Arith.
From Verif Require Import FeatSpec TuneModel.
Import ListNotations.
Local Open Scope nat_scope.
(** weighted log-probability of [ws] after the words [before] at the beginning of a sentence *)
Definition lm_after (f : lmf) (before ws : list nat) : Z := (l_w f * lm_score (l_lp f) (history (l_bos f) before) ws)%Z.
Definition total (fs : list lmf) (v : lmf -> Z) : Z := fold_right (fun f a => (v f + a)%Z) 0%Z fs.
(** what is left of a sentence of which the first [len] words are done: the words and the end of the sentence *)
Definition remaining (fs : list lmf) (sent : list nat) (len : nat) : Z := total fs (fun f => (lm_after f (firstn len sent) (skipn len sent) + l_end f (history (l_bos f) sent))%Z).
(** the part that is done *)
Definition achieved (fs : list lmf) (sent : list nat) (len : nat) : Z := total fs (fun f => lm_after f [] (firstn len sent)).
